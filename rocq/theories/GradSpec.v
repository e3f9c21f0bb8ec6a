(** Vocabulary for C109: training of values, without parameter objects, gradients or files. *)
From Coq Require Import List Arith Bool.
From Verif Require Import Common GradModel.
Import ListNotations.

Section Spec.
Context {V St : Type}.
Variable st0 : St.

(** One trained part: values, optimizer state per value, rule of the optimizer. *)
Record pure := mkPure { vs : list V; ss : list St; pr : St -> V -> V -> St * V }.

(** One gradient step: a value without gradient stays with its state. *)
Definition pstep (r : St -> V -> V -> St * V) (v : V) (s : St) (g : option V) : V * St :=
  match g with None => (v, s) | Some x => (snd (r s v x), fst (r s v x)) end.

Definition pfit (i : nat) (loss : list (list V) -> nat -> nat -> option V) (cl : list (option V) -> V -> V) (a : list pure) : list pure :=
  match nth_error a i with
  | None => a
  | Some c =>
      let gs := map (loss (map vs a) i) (seq 0 (length (vs c))) in
      let gs' := map (option_map (cl gs)) gs in
      let rs := map (fun vsg => pstep (pr c) (fst (fst vsg)) (snd (fst vsg)) (snd vsg)) (combine (combine (vs c) (ss c)) gs') in
      setnth a i (mkPure (map fst rs) (map snd rs) (pr c))
  end.

Definition pset (i : nat) (f : list (list V) -> nat -> V) (a : list pure) : list pure :=
  match nth_error a i with
  | None => a
  | Some c => setnth a i (mkPure (map (f (map vs a)) (seq 0 (length (vs c)))) (ss c) (pr c))
  end.

(** Loading and copying change nothing. *)
Definition prun1 (a : list pure) (o : op V) : list pure :=
  match o with OFit i loss cl => pfit i loss cl a | OSet i f => pset i f a | OLoad | OCopy => a end.
Definition prun (l : list (op V)) (a : list pure) : list pure := fold_left prun1 l a.
Definition pbuild (specs : list (list V * (St -> V -> V -> St * V))) : list pure :=
  map (fun s => mkPure (fst s) (map (fun _ => st0) (fst s)) (snd s)) specs.
End Spec.

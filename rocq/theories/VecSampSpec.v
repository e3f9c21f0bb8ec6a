(** Vocabulary for C119: expectation over the tapes of several environments and the policy's. *)
From Coq Require Import List Reals Permutation.
From Verif Require Import Common PgExpSpec.
Import ListNotations.
Local Open Scope R_scope.

(** Independent tapes of the lengths [lens], the draws of each distributed as [mue]. *)
Fixpoint etapes {A} (lens : list nat) (mue : list (R * A)) (f : list (list A) -> R) : R :=
  match lens with
  | [] => f []
  | l :: lens' => mean (batches l mue) (fun t => etapes lens' mue (fun ts => f (t :: ts)))
  end.

(** The tapes of the environments and that of the policy. *)
Definition vtapes {A B} (lens : list nat) (na : nat) (mue : list (R * A)) (mua : list (R * B)) (f : list (list A) -> list B -> R) : R :=
  etapes lens mue (fun tes => mean (batches na mua) (fun ta => f tes ta)).

(** A quantity that does not depend on the order of the episodes. *)
Definition symmetric {A B} (F : list A -> B) : Prop := forall b b', Permutation b b' -> F b = F b'.

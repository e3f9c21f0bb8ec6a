(** The columns of a dataset beside the transitions: the states of the policy and the list of
    policy parameters (/repo/mushroom_rl/core/dataset.py 60-282 and 590-640,
    /repo/mushroom_rl/core/_impl/numpy_dataset.py; torch_dataset.py has the same lines).

    A row is a transition; [ps] gives the pair of policy states that went with it.  [None] is an
    exception.  Flags, info dictionaries and masks are left out (DatasetModel.v has the flags). *)
From Coq Require Import List Arith Lia Bool ZArith.
Import ListNotations.

Section Ds.
Context {Row P Th : Type}.
Variable ps : Row -> P.
(** What np.empty leaves in a place that was never written. *)
Variable garb : nat -> P.

(** Python indexes of an array: a slice with step 1, or an array of integers. *)
Inductive index := Slice (a b : option Z) | Idxs (l : list Z).
Definition bound (n : nat) (x : Z) : nat := if (x <? 0)%Z then Z.to_nat (x + Z.of_nat n) else Nat.min (Z.to_nat x) n.
Definition place (n : nat) (x : Z) : option nat :=
  if ((- Z.of_nat n <=? x) && (x <? Z.of_nat n))%Z then Some (Z.to_nat (if (x <? 0)%Z then x + Z.of_nat n else x)) else None.
Fixpoint all_some {A} (l : list (option A)) : option (list A) :=
  match l with [] => Some [] | Some x :: t => match all_some t with Some t' => Some (x :: t') | None => None end | None :: _ => None end.
Definition pick {A} (l : list A) (i : index) : option (list A) :=
  let n := length l in
  match i with
  | Slice a b => let lo := match a with Some x => bound n x | None => 0 end in
                 let hi := match b with Some x => bound n x | None => n end in
                 Some (firstn (hi - lo) (skipn lo l))
  | Idxs xs => all_some (map (fun x => match place n x with Some k => nth_error l k | None => None end) xs)
  end.

(** [vis] are the rows written (numpy_dataset.py 222-244, the properties cut the arrays at the
    length); [pol] is the whole array of policy states, None for a dataset without. *)
Record ds := mkDs { vis : list Row; pol : option (list P); theta : option (list Th) }.

(** Dataset.policy_state (dataset.py 312-313, numpy_dataset.py 245-247): None[:n] raises *)
Definition policy_state (d : ds) : option (list P) := option_map (firstn (length (vis d))) (pol d).

(** A dataset made with room for [cap] rows and filled by append (dataset.py 230-238,
    numpy_dataset.py 113-133) *)
Definition collected (stateful : bool) (cap : nat) (rs : list Row) (ths : list Th) : option ds :=
  if length rs <=? cap
  then Some (mkDs rs (if stateful then Some (map ps rs ++ map garb (seq (length rs) (cap - length rs))) else None) (Some ths))
  else None.
(** Dataset.from_array (dataset.py 164-228): the policy states are checked (193-194) and not
    handed on (214-219) *)
Definition from_array (rs : list Row) (pst : option (list P)) (ths : option (list Th)) : option ds :=
  match pst with
  | Some l => if length rs =? length l then Some (mkDs rs None (Some (match ths with Some t => t | None => [] end))) else None
  | None => Some (mkDs rs None (Some (match ths with Some t => t | None => [] end)))
  end.
(** VectorizedDataset.flatten (dataset.py 590-640): environment by environment *)
Definition flatten (stateful : bool) (envs : list (list Row)) (thss : list (list Th)) : option ds :=
  from_array (concat envs) (if stateful then Some (map ps (concat envs)) else None) (Some (concat thss)).
(** get_view without copy (dataset.py 252-259, numpy_dataset.py 180-192): the transitions are
    taken from the rows written, the policy states from the whole array *)
Definition view (d : ds) (i : index) : option ds :=
  match pick (vis d) i with
  | None => None
  | Some rs => match pol d with
               | None => Some (mkDs rs None None)
               | Some l => match pick l i with Some l' => Some (mkDs rs (Some l') None) | None => None end
               end
  end.
(** __add__ (dataset.py 273-282, numpy_dataset.py 202-219) *)
Definition add (d e : ds) : option ds :=
  match theta d, theta e with
  | Some t, Some t' =>
      match pol d with
      | None => Some (mkDs (vis d ++ vis e) None (Some (t ++ t')))
      | Some _ => match policy_state d, policy_state e with
                  | Some l, Some l' => Some (mkDs (vis d ++ vis e) (Some (l ++ l')) (Some (t ++ t')))
                  | _, _ => None
                  end
      end
  | _, _ => None
  end.
(** PPO_BPTT.fit (ppo_bptt.py 73-81) reads the transitions and then the policy states *)
Definition bptt_inputs (d : ds) : option (list (Row * P)) := option_map (combine (vis d)) (policy_state d).

(** Datasets a program can make *)
Inductive dexp :=
| Collected (stateful : bool) (cap : nat) (rs : list Row) (ths : list Th)
| FromArray (rs : list Row) (pst : option (list P)) (ths : option (list Th))
| Flatten (stateful : bool) (envs : list (list Row)) (thss : list (list Th))
| View (e : dexp) (i : index)
| Add (e f : dexp).
Fixpoint eval (x : dexp) : option ds :=
  match x with
  | Collected s c rs t => collected s c rs t
  | FromArray rs p t => from_array rs p t
  | Flatten s es t => flatten s es t
  | View e i => match eval e with Some d => view d i | None => None end
  | Add e f => match eval e, eval f with Some d, Some d' => add d d' | _, _ => None end
  end.
End Ds.

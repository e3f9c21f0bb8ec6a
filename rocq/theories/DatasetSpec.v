(** Independent specification of dataset containers and statistics. *)
From Coq Require Import List Arith ZArith Lia Reals Bool.
From Verif Require Import Common EpisodeSpec DatasetModel.
Import ListNotations.

(** Discounted sum of a list of rewards: sum over k of g^k * r_k. *)
Definition disc (g : R) (rs : list R) : R :=
  rsum (map (fun k => (g ^ k * nth k rs 0)%R) (seq 0 (length rs))).

(** All episodes of a sequence of rows: the complete ones, then the unfinished
    one when there is one. *)
Definition episodes {St Ac} (l : list (row St Ac)) : list (list (row St Ac)) :=
  complete r_last l ++ match unfinished r_last l with [] => [] | u => [u] end.

Definition ret {St Ac} (g : R) (e : list (row St Ac)) : R := disc g (map r_reward e).

Definition is_min (m : R) (l : list R) : Prop := In m l /\ forall x, In x l -> (m <= x)%R.
Definition is_max (m : R) (l : list R) : Prop := In m l /\ forall x, In x l -> (x <= m)%R.

(** Python list operations, stated on lists only: negative indices count from
    the end. *)
Definition list_get {A} (l : list A) (i : Z) : option A :=
  if (i <? 0)%Z then if (0 <=? i + Z.of_nat (length l))%Z
                     then nth_error l (Z.to_nat (i + Z.of_nat (length l))) else None
  else nth_error l (Z.to_nat i).

(** Concatenation where the last row of a non-empty left part is flagged. *)
Definition flag_end {St Ac} (l : list (row St Ac)) : list (row St Ac) :=
  match rev l with [] => [] | x :: t => rev t ++ [set_last x true] end.

(** Rows up to the last flag. *)
Definition forget {St Ac} (x : row St Ac) : row St Ac := set_last x false.

(** ** Abstract container: the list of samples, the list of policy states of a
    stateful dataset, and the capacity. *)
Record acont (St Ac Ps : Type) := mkAc {
  a_rows : list (row St Ac); a_pols : option (list Ps); a_cap : nat }.
Arguments mkAc {St Ac Ps}. Arguments a_rows {St Ac Ps}. Arguments a_pols {St Ac Ps}. Arguments a_cap {St Ac Ps}.

(** Operations, with the concrete right operand of a concatenation and the
    uninitialised memory used by clear. *)
Inductive dop (St Ac Ps : Type) :=
| DAppend (x : row St Ac) (p : option Ps)
| DClear (gb : nat -> row St Ac) (gp : nat -> Ps)
| DSlice (a b : nat)
| DFrom (a : nat)
| DTake (l : list nat)
| DAdd (e : nds St Ac Ps).
Arguments DAppend {St Ac Ps}. Arguments DClear {St Ac Ps}. Arguments DSlice {St Ac Ps}.
Arguments DFrom {St Ac Ps}. Arguments DTake {St Ac Ps}. Arguments DAdd {St Ac Ps}.

Fixpoint list_take {A} (l : list A) (idx : list nat) : option (list A) :=
  match idx with
  | [] => Some []
  | i :: t => match nth_error l i, list_take l t with Some x, Some r => Some (x :: r) | _, _ => None end
  end.

Definition spec_step {St Ac Ps} (s : acont St Ac Ps) (o : dop St Ac Ps) : option (acont St Ac Ps) :=
  match o with
  | DAppend x p =>
      if length (a_rows s) <? a_cap s then
        match a_pols s, p with
        | Some l, Some q => Some (mkAc (a_rows s ++ [x]) (Some (l ++ [q])) (a_cap s))
        | None, None => Some (mkAc (a_rows s ++ [x]) None (a_cap s))
        | _, _ => None
        end
      else None
  | DClear _ _ => Some (mkAc [] (option_map (fun _ => []) (a_pols s)) (a_cap s))
  | DSlice a b => let f A (l : list A) := firstn (b - a) (skipn a l) in
      Some (mkAc (f _ (a_rows s)) (option_map (f _) (a_pols s)) (length (f _ (a_rows s))))
  | DFrom a =>
      Some (mkAc (skipn a (a_rows s)) (option_map (skipn a) (a_pols s)) (length (skipn a (a_rows s))))
  | DTake l =>
      match list_take (a_rows s) l with
      | None => None
      | Some r => match a_pols s with
                  | None => Some (mkAc r None (length r))
                  | Some p => match list_take p l with
                              | Some q => Some (mkAc r (Some q) (length r)) | None => None end
                  end
      end
  | DAdd e =>
      match a_rows s with
      | [] => None                      (* no claim: see dataset_add_empty_left_refuted *)
      | _ => let r := flag_end (a_rows s) ++ rows e in
             match a_pols s, pols e with
             | Some p, Some q => Some (mkAc r (Some (p ++ q)) (length r))
             | None, None => Some (mkAc r None (length r))
             | _, _ => None
             end
      end
  end.

Fixpoint spec_run {St Ac Ps} (s : acont St Ac Ps) (o : list (dop St Ac Ps)) : option (acont St Ac Ps) :=
  match o with [] => Some s | x :: t => match spec_step s x with Some s' => spec_run s' t | None => None end end.

(** The same operations on the model. *)
Definition nd_step {St Ac Ps} (d : nds St Ac Ps) (o : dop St Ac Ps) : option (nds St Ac Ps) :=
  match o with
  | DAppend x p => nd_append d x p
  | DClear gb gp => Some (nd_clear d gb gp)
  | DSlice a b => nd_view d (ISlice (Some (Z.of_nat a)) (Some (Z.of_nat b)))
  | DFrom a => nd_view d (ISlice (Some (Z.of_nat a)) None)
  | DTake l => nd_view d (IArray (map Z.of_nat l))
  | DAdd e => nd_add d e
  end.

Fixpoint nd_run {St Ac Ps} (d : nds St Ac Ps) (o : list (dop St Ac Ps)) : option (nds St Ac Ps) :=
  match o with [] => Some d | x :: t => match nd_step d x with Some d' => nd_run d' t | None => None end end.

(** A freshly constructed dataset: nothing visible, the allocation of size [cap]. *)
Definition fresh {St Ac Ps} (cap : nat) (d : nds St Ac Ps) : Prop :=
  nd_len d = 0 /\ length (nd_buf d) = cap /\
  match nd_pol d with Some p => length p = cap | None => True end.

(** Right operands of concatenations are themselves datasets. *)
Definition valid {St Ac Ps} (d : nds St Ac Ps) : Prop :=
  nd_len d <= length (nd_buf d) /\
  match nd_pol d with Some p => length (nd_buf d) <= length p | None => True end.

Definition op_valid {St Ac Ps} (o : dop St Ac Ps) : Prop :=
  match o with DAdd e => valid e | _ => True end.

(** The direction eNAC hands to its optimizer,
    mushroom_rl/algorithms/policy_search/policy_gradient/enac.py 35-44.  The rows and returns
    collected by [_step_update] and [_episode_end_update] are those of [PgModel.enac]; this file
    adds the last step, [np.linalg.pinv(PSI).dot(R)] and the slice to the policy weights.
    [np.linalg.pinv] is an argument: given the numbers of rows and columns and a matrix it
    returns a matrix; theorems assume the Moore-Penrose equations of it. *)
From Coq Require Import List Arith Reals.
From Verif Require Import Common PgModel CorePgModel Mat.
From Verif Require CoreModel.
Import ListNotations.
Local Open Scope R_scope.

(** [psi = np.concatenate((self.sum_grad_log, self.psi_ext))], enac.py 56; [d] is
    [policy.weights_size], the length of [sum_grad_log]. *)
Definition en_row (d : nat) (p : vec * list R) (j : nat) : R :=
  if (j <? d)%nat then fst p j else nth (j - d) (snd p) 0.

(** [PSI = np.array(self.sum_grad_log_list)], enac.py 37. *)
Definition en_mat (d : nat) (psi : list (vec * list R)) : mat :=
  fun i j => en_row d (nth i psi (vzero, [])) j.
Definition en_cols (d : nat) (psi : list (vec * list R)) : nat :=
  (d + length (snd (hd (vzero, []) psi)))%nat.

(** [w_and_v = np.linalg.pinv(PSI).dot(R); nat_grad = w_and_v[:self.policy.weights_size]],
    enac.py 39-40. *)
Definition en_direction (pinv : nat -> nat -> mat -> mat) (d : nat) (g : list (vec * list R) * list R) : vec :=
  let '(psi, J) := g in
  let w_and_v := mv (length psi) (pinv (length psi) (en_cols d psi) (en_mat d psi)) (fun i => nth i J 0) in
  fun j => if (j <? d)%nat then w_and_v j else 0.

(** [PolicyGradient._update_parameters], policy_gradient.py 56-71, for eNAC: the optimizer gets
    the old weights and the direction. *)
Definition en_opt {Os : Type} (pinv : nat -> nat -> mat -> mat) (d : nat) (opt : Os -> vec -> vec -> Os * vec)
    (o : Os) (w : vec) (g : list (vec * list R) * list R) : Os * vec :=
  opt o w (en_direction pinv d g).

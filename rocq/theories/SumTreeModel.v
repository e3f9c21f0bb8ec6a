(** Model of [SumTree], [PrioritizedReplayMemory] and [SequenceReplayMemory.get]
    (/repo/mushroom_rl/rl_utils/replay_memory.py 166-599).

    Simplifications: as in ReplayModel for the stored rows; the numpy array
    [_tree] is a list of real numbers; powers with real exponents are [Rpower]
    (used for positive bases only); the numbers drawn by np.random are arguments. *)
From Coq Require Import List Arith Lia Reals Bool.
From Verif Require Import Common ReplayModel.
Import ListNotations.

(** [t[i]] for an index inside the array. *)
Definition at_ (t : list R) (i : nat) : R := nth i t 0%R.

(** _propagate (replay_memory.py 404-410).  For [idx = 0] Python computes the
    parent index -1, which is never 0: the recursion does not end
    (RecursionError), here [None].  [fuel] bounds the recursion depth. *)
Fixpoint propagate (fuel : nat) (t : list R) (delta : R) (idx : nat) : option (list R) :=
  match fuel, idx with
  | S f, S k =>
      let p := k / 2 in
      t' <- upd t p (at_ t p + delta)%R ;;
      if p =? 0 then Some t' else propagate f t' delta p
  | _, _ => None
  end.

(** update for one index (replay_memory.py 398-402). *)
Definition update1 (t : list R) (i : nat) (p : R) : option (list R) :=
  o <- nth_error t i ;;
  t' <- upd t i p ;;
  propagate (length t) t' (p - o)%R i.

(** update (replay_memory.py 389-402): zip stops at the shorter list. *)
Fixpoint update (t : list R) (idx : list nat) (ps : list R) : option (list R) :=
  match idx, ps with
  | i :: it, p :: pt => t' <- update1 t i p ;; update t' it pt
  | _, _ => Some t
  end.

(** _retrieve (replay_memory.py 412-425).  [choice i] is the outcome of
    np.random.choice at node [i] (true = left); a node is visited at most once. *)
Fixpoint retrieve (fuel : nat) (t : list R) (choice : nat -> bool) (s : R) (idx : nat) : option nat :=
  match fuel with
  | O => None
  | S f =>
      let left := 2 * idx + 1 in
      let right := left + 1 in
      if length t <=? left then Some idx
      else if Req_EM_T (at_ t left) (at_ t right) then
        retrieve f t choice s (if choice idx then left else right)
      else if Rle_dec s (at_ t left) then retrieve f t choice s left
      else retrieve f t choice (s - at_ t left)%R right
  end.

Section Tree.
Variables St Ac Ps : Type.
Notation sample := (sample St Ac Ps).

(** Attributes of SumTree (replay_memory.py 270-299): the array and the ring of
    rows, the latter with the same fields as a ReplayMemory. *)
Record stree := mkST { t_mem : memory St Ac Ps; t_arr : list R }.

Definition st_init (max_size : nat) : stree :=
  mkST (mem_init 0 max_size) (repeat 0%R (2 * max_size - 1)).

(** One stored transition: write the row, update the leaf, advance the ring
    index (replay_memory.py 330-363). *)
Definition st_store (t : stree) (x : sample) (p : R) : option stree :=
  m' <- store (t_mem t) x ;;
  a <- update (t_arr t) [m_idx (t_mem t) + m_max (t_mem t) - 1] [p] ;;
  Some (mkST m' a).

(** The loop of add (replay_memory.py 319-365). *)
Fixpoint st_add_loop (fuel : nat) (ds : list sample) (prio : list R) (n : nat) (g : R)
         (i : nat) (rew : list R) (t : stree) : option (stree * list R) :=
  match fuel with
  | O => None
  | S f =>
      if i + n <? length ds + 1 then
        b <- inner (map s_last ds) g i 0 (n - 1) rew ;;
        match b with
        | (rew', Some i') => st_add_loop f ds prio n g i' rew' t
        | (rew', None) =>
            x <- mk_row ds rew' i (n - 1) ;;
            p <- nth_error prio i ;;
            t' <- st_store t x p ;;
            st_add_loop f ds prio n g (i + 1) rew' t'
        end
      else Some (t, rew)
  end.

(** add (replay_memory.py 301-365); [None] also covers the assertion on the
    priorities and n_steps_return > 0 (PrioritizedReplayMemory.add 519). *)
Definition st_add (t : stree) (ds : list sample) (prio : list R) (n : nat) (g : R) : option (stree * list R) :=
  if forallb (fun p => if Rlt_dec 0 p then true else false) prio then
    if 0 <? n then st_add_loop (length ds + 2) ds prio n g 0 (map s_reward ds) t else None
  else None.

(** get_ind (replay_memory.py 382-395): leaf, priority, row index. *)
Definition get_ind (t : stree) (choice : nat -> bool) (s : R) : option (nat * R * nat) :=
  i <- retrieve (length (t_arr t)) (t_arr t) choice s 0 ;;
  if m_max (t_mem t) <=? i + 1 then Some (i, at_ (t_arr t) i, i + 1 - m_max (t_mem t)) else None.

(** size, max_p, total_p (replay_memory.py 427-453). *)
Definition st_size (t : stree) : nat := size (t_mem t).
Definition leaves (t : stree) : list R := lastn (m_max (t_mem t)) (t_arr t).
Definition max_p (t : stree) : R :=
  match leaves t with [] => 0%R | x :: l => fold_left Rmax l x end.
Definition total_p (t : stree) : R := at_ (t_arr t) 0.

(** Histories of SumTree calls. *)
Inductive st_op :=
| StAdd (ds : list sample) (prio : list R) (n : nat) (g : R)
| StUpdate (idx : list nat) (ps : list R).

Fixpoint st_run (t : stree) (ops : list st_op) : option stree :=
  match ops with
  | [] => Some t
  | StAdd ds prio n g :: l => r <- st_add t ds prio n g ;; st_run (fst r) l
  | StUpdate idx ps :: l => a <- update (t_arr t) idx ps ;; st_run (mkST (t_mem t) a) l
  end.

(** ** PrioritizedReplayMemory *)

(** _get_priority (replay_memory.py 574-575). *)
Definition get_priority (eps alpha err : R) : R := Rpower (Rabs err + eps) alpha.

(** Importance weights of get (replay_memory.py 553-555). *)
Definition is_weights (size : nat) (total beta : R) (prios : list R) : list R :=
  let w := map (fun p => Rpower (INR size * (p / total)) (- beta)) prios in
  let m := match w with [] => 0%R | x :: l => fold_left Rmax l x end in
  map (fun x => (x / m)%R) w.

(** max_priority (replay_memory.py 588-594). *)
Definition max_priority (initial_size : nat) (t : stree) : R :=
  if initial_size <? st_size t then max_p t else 1%R.

(** ** SequenceReplayMemory.get, for one drawn index (replay_memory.py 216-252) *)

(** Position of the last [true]. *)
Fixpoint last_true (l : list bool) : option nat :=
  match l with
  | [] => None
  | b :: t => match last_true t with Some k => Some (S k) | None => if b then Some 0 else None end
  end.

(** begin_seq and more_than_one_traj (replay_memory.py 218-229). *)
Definition seq_begin (data : list sample) (T i : nat) : nat * bool :=
  let b := i + 1 - T in
  match last_true (slice b i (map s_last data)) with
  | Some k => (b + k + 1, true)
  | None => (b, false)
  end.

(** The rows of the returned sequence and the previous actions; [zero] is the
    zero action (replay_memory.py 231-252).  [None] only for an index outside. *)
Definition seq_get (data : list sample) (zero : Ac) (T i : nat) : option (list sample * list Ac) :=
  if i <? length data then
    let '(b, more) := seq_begin data T i in
    let start := more || (b =? 0) || match nth_error data (b - 1) with Some x => s_last x | None => false end in
    let prev := if start then zero :: map s_action (slice b i data)
                else map s_action (slice (b - 1) i data) in
    Some (slice b (i + 1) data, prev)
  else None.

(** One entry of the arrays returned by SequenceReplayMemory.get. *)
Record seq_entry := mkSeq {
  q_state : list St; q_action : list Ac; q_reward : R; q_next : list St; q_abs : bool; q_last : bool;
  q_ps : list Ps; q_nps : list Ps; q_prev : list Ac; q_len : nat }.

(** [x[num, :k] = rows] on a row of [T] zeros (replay_memory.py 203-214, 244-249).  numpy
    refuses [k] rows into fewer than [k] places: [None]. *)
Definition write_rows {X} (T : nat) (z : X) (l : list X) : option (list X) :=
  if length l <=? T then Some (l ++ repeat z (T - length l)) else None.

(** The body of the loop for one drawn index (replay_memory.py 216-255): [zs], [za], [zp] are
    the zero observation, action and policy state. *)
Definition seq_entry_of (data : list sample) (zs : St) (za : Ac) (zp : Ps) (T i : nat) : option seq_entry :=
  x <- nth_error data i ;;
  w <- seq_get data za T i ;;
  s <- write_rows T zs (map s_state (fst w)) ;;
  ss <- write_rows T zs (map s_next (fst w)) ;;
  a <- write_rows T za (map s_action (fst w)) ;;
  ps <- write_rows T zp (map s_ps (fst w)) ;;
  nps <- write_rows T zp (map s_pns (fst w)) ;;
  pa <- write_rows T za (snd w) ;;
  Some (mkSeq s a (s_reward x) ss (s_absorbing x) (s_last x) ps nps pa (length (fst w))).

(** SequenceReplayMemory.get(n_samples) with the indices drawn by np.random.randint
    (replay_memory.py 193-262). *)
Definition seq_batch (data : list sample) zs za zp T (idx : list nat) : option (list seq_entry) :=
  fold_right (fun i acc => e <- seq_entry_of data zs za zp T i ;; l <- acc ;; Some (e :: l)) (Some []) idx.
End Tree.
Arguments mkSeq {St Ac Ps}. Arguments q_state {St Ac Ps}. Arguments q_action {St Ac Ps}.
Arguments q_reward {St Ac Ps}. Arguments q_next {St Ac Ps}. Arguments q_abs {St Ac Ps}.
Arguments q_last {St Ac Ps}. Arguments q_ps {St Ac Ps}. Arguments q_nps {St Ac Ps}.
Arguments q_prev {St Ac Ps}. Arguments q_len {St Ac Ps}.
Arguments seq_entry_of {St Ac Ps}. Arguments seq_batch {St Ac Ps}.
Arguments mkST {St Ac Ps}. Arguments t_mem {St Ac Ps}. Arguments t_arr {St Ac Ps}.
Arguments st_init {St Ac Ps}. Arguments st_store {St Ac Ps}. Arguments st_add_loop {St Ac Ps}.
Arguments st_add {St Ac Ps}. Arguments get_ind {St Ac Ps}. Arguments st_size {St Ac Ps}.
Arguments leaves {St Ac Ps}. Arguments max_p {St Ac Ps}. Arguments total_p {St Ac Ps}.
Arguments st_run {St Ac Ps}. Arguments StAdd {St Ac Ps}. Arguments StUpdate {St Ac Ps}.
Arguments max_priority {St Ac Ps}. Arguments seq_begin {St Ac Ps}. Arguments seq_get {St Ac Ps}.

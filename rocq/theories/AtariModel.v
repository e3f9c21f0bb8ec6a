(** Atari environments (mushroom_rl/environments/atari.py, gymnasium_atari.py) and LazyFrames (utils/frames.py).
    The emulator is an arbitrary transition system: its states, its screens and its rewards are oracles. The
    preprocessing of a screen (grey scale, resize) is a function, and so is the pooling of two screens. self.env.env.step, which peels one
    wrapper off, is the same emulator step: a time limit of gym counted in the peeled wrapper is not modelled. *)
From Coq Require Import List Arith Lia Reals Bool.
From Verif Require Import Common.
Import ListNotations.
Local Open Scope R_scope.

Section Atari.
Context {G F P : Type}.
(** what one frame of the emulator returns: screen, reward, game over, info['lives'] *)
Record obs := { o_frame : F; o_rew : R; o_done : bool; o_lives : nat }.
Variable raw : G -> nat -> G * obs.        (* one step of the emulator *)
Variable newgame : G -> G * F.             (* reset of the emulator *)
Variable pool : F -> F -> F.               (* max or mean of the two screens of the buffer *)
Variable prep : F -> P.                    (* preprocess_frame *)
Variable black : F.                        (* np.zeros *)
Variables (noframeskip ends_at_life has_fire : bool) (max_lives h : nat).

(** the loop of MaxAndSkip.step (atari.py 24-33): frame [i] of [skip], [todo] frames left; the buffer is [b0], [b1] *)
Fixpoint skip_loop (skip i todo : nat) (g : G) (a : nat) (b0 b1 : F) (tot : R) (last : obs) : G * (F * F) * R * obs :=
  match todo with
  | O => (g, (b0, b1), tot, last)
  | S todo' =>
      let '(g', o) := raw g a in
      let b0' := if Nat.eqb (i + 2) skip then o_frame o else b0 in
      let b1' := if Nat.eqb (i + 1) skip then o_frame o else b1 in
      if o_done o then (g', (b0', b1'), tot + o_rew o, o)
      else skip_loop skip (S i) todo' g' a b0' b1' (tot + o_rew o) o
  end.
(** MaxAndSkip.step (atari.py 22-39): the screen pooled from the buffer, the summed reward, the flags of the last frame. [skip] is
    the history length (atari.py 70-71), at least one. *)
Definition max_skip (g : G) (a : nat) (b : F * F) : G * (F * F) * obs :=
  let '(g', b', tot, o) := skip_loop h 0 h g a (fst b) (snd b) 0 {| o_frame := black; o_rew := 0; o_done := false; o_lives := 0 |} in
  (g', b', {| o_frame := pool (fst b') (snd b'); o_rew := tot; o_done := o_done o; o_lives := o_lives o |}).
(** self.env.step: with the NoFrameskip games the wrapper, otherwise the game itself (atari.py 70-73) *)
Definition env_step (g : G) (a : nat) (b : F * F) : G * (F * F) * obs :=
  if noframeskip then max_skip g a b else let '(g', o) := raw g a in (g', b, o).

(** the attributes of Atari (atari.py 76-85): the deque of frames, lives, the pending FIRE and no-op actions, and whether the
    next reset resets the game *)
Record atari := mkA { a_g : G; a_buf : F * F; a_frames : list P; a_lives : nat; a_fire : bool; a_noop : nat; a_real : bool }.

(** deque.append with maxlen *)
Definition push (l : list P) (x : P) : list P := lastn h (l ++ [x]).
(** self.env.env.step(0) repeated (atari.py 124-126): screens, rewards and flags are dropped *)
Fixpoint noops (n : nat) (g : G) : G := match n with O => g | S n' => noops n' (fst (raw g 0)) end.

(** reset (atari.py 99-113); [d] is the draw of np.random.randint *)
Definition atari_reset (st : atari) (d : nat) : atari :=
  if a_real st
  then let '(g, f) := newgame (a_g st) in
       mkA g (a_buf st) (repeat (prep f) h) max_lives has_fire d true
  else mkA (a_g st) (a_buf st) (a_frames st) (a_lives st) has_fire d false.
(** GymnasiumAtari.reset (gymnasium_atari.py 104-118): the returned info is only bound by a real reset, otherwise the return
    statement raises; None is the exception *)
Definition gymnasium_reset (st : atari) (d : nat) : option atari := if a_real st then Some (atari_reset st d) else None.

(** step (atari.py 115-136): the new state, the reward and the absorbing flag; the observation is the deque *)
Definition atari_step (st : atari) (a : nat) : atari * R * bool :=
  let g1 := if a_fire st then fst (raw (a_g st) 1) else a_g st in
  let g2 := noops (a_noop st) g1 in
  let '(g3, b, o) := env_step g2 a (a_buf st) in
  let lost := negb (Nat.eqb (o_lives o) (a_lives st)) in
  (mkA g3 b (push (a_frames st) (prep (o_frame o))) (if lost then o_lives o else a_lives st)
       (if lost then has_fire else false) 0 (o_done o),
   o_rew o, if lost then orb (o_done o) ends_at_life else o_done o).
(** stop (atari.py 146-148) *)
Definition atari_stop (st : atari) : atari :=
  mkA (a_g st) (a_buf st) (a_frames st) (a_lives st) (a_fire st) (a_noop st) true.
End Atari.
Arguments obs : clear implicits.
Arguments o_frame {F}. Arguments o_rew {F}. Arguments o_done {F}. Arguments o_lives {F}.
Arguments a_g {G F P}. Arguments a_buf {G F P}. Arguments a_frames {G F P}. Arguments a_lives {G F P}. Arguments a_fire {G F P}.
Arguments a_noop {G F P}. Arguments a_real {G F P}. Arguments mkA {G F P}. Arguments atari_stop {G F P}.

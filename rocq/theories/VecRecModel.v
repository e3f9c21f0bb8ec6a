(** Recording videos with VectorCore (core/vectorized_core.py 37-41, 140-175, 204-213) over the
    environments of MultiprocessEnvironment (core/multiprocess_environment.py, render_all), with
    one VideoRecorder (utils/record.py) per environment.

    Frames are opaque.  The file system maps names to the frames of the last writer opened under
    that name; what two writers open at the same time under one name leave in the file is not
    modelled, only the names are compared. *)
From Coq Require Import String List Arith Lia Bool.
From Verif Require Import Common.
Import ListNotations.

Section Rec.
Context {F : Type}.

(** MultiprocessEnvironment.render_all: the frames of the environments whose mask is set, in
    order; [frames] are the images that the environments show *)
Fixpoint render_all (mask : list bool) (frames : list F) : list F :=
  match mask, frames with
  | b :: mask', f :: frames' => if b then f :: render_all mask' frames' else render_all mask' frames'
  | _, _ => []
  end.

(** VectorCore._step (vectorized_core.py 157-163): [self._record[i](frames[i])] for the
    environments whose mask is set; an index beyond the frames is an IndexError *)
Fixpoint record_loop (i : nat) (mask : list bool) (shown : list F) (recs : list (list F)) : option (list (list F)) :=
  match mask, recs with
  | b :: mask', r :: recs' =>
      match (if b then match nth_error shown i with Some f => Some (r ++ [f]) | None => None end else Some r),
            record_loop (S i) mask' shown recs' with
      | Some r', Some rs => Some (r' :: rs)
      | _, _ => None
      end
  | _, _ => Some recs
  end.
Definition record_step (mask : list bool) (frames : list F) (recs : list (list F)) : option (list (list F)) :=
  record_loop 0 mask (render_all mask frames) recs.
End Rec.

(** The files of the recorders.  VideoRecorder.__init__ (record.py 12-36): the directory is the
    given tag or the time of the construction in seconds; _create_video_writer (51-61): the
    number of earlier videos is part of the name. *)
Definition rec_tag (tag : option string) (now : string) : string := match tag with Some t => t | None => now end.
Definition rec_name (name : option string) (counter : nat) (show : nat -> string) : string :=
  let base := match name with Some s => if String.eqb s "" then "recording"%string else s | None => "recording"%string end in
  match counter with O => (base ++ ".mp4")%string | S _ => (base ++ "-" ++ show counter ++ ".mp4")%string end.
Definition rec_path (tag name : option string) (now : string) (counter : nat) (show : nat -> string) : string * string :=
  (rec_tag tag now, rec_name name counter show).
(** vectorized_core.py 39-41: one recorder per environment, all with the same arguments; [clock i]
    is the time at which the i-th is built *)
Definition vec_paths (n : nat) (tag name : option string) (clock : nat -> string) (counter : nat) (show : nat -> string)
  : list (string * string) :=
  map (fun i => rec_path tag name (clock i) counter show) (seq 0 n).

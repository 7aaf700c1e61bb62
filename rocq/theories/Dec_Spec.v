(** What it means for a state path to traverse a phone sequence. *)
From Coq Require Import List Arith.
Import ListNotations.

(** one visit of a phone: the phone, the number of frames spent in its entry
    state beyond the first, and the states of the remaining frames *)
Record visit : Type := Visit { v_phone : nat; v_more : nat; v_rest : list nat }.

(** frames of a visit, [entry] gives the entry state of each phone *)
Definition frames (entry : nat -> nat) (v : visit) : list nat :=
  entry (v_phone v) :: repeat (entry (v_phone v)) (v_more v) ++ v_rest v.

(** states of a whole utterance *)
Definition unroll (entry : nat -> nat) (vs : list visit) : list nat :=
  flat_map (frames entry) vs.

(** phone of each frame *)
Definition frame_phones (vs : list visit) : list nat :=
  flat_map (fun v => repeat (v_phone v) (S (v_more v + length (v_rest v)))) vs.

(** two successive visits can be told apart: the first one leaves its entry
    state, or the phone changes *)
Fixpoint separated (vs : list visit) : Prop :=
  match vs with
  | v :: ((w :: _) as t) => (v_rest v <> [] \/ v_phone v <> v_phone w) /\ separated t
  | _ => True
  end.

(** visits for exit-state based conversion: frames before the exit state, and
    the number of frames spent in it beyond the first *)
Definition exit_frames (exit : nat -> nat) (v : visit) : list nat :=
  v_rest v ++ exit (v_phone v) :: repeat (exit (v_phone v)) (v_more v).
Definition exit_unroll (exit : nat -> nat) (vs : list visit) : list nat :=
  flat_map (exit_frames exit) vs.
(** two successive visits can be told apart: the second one does not start in
    its exit state, or the phone changes *)
Fixpoint exit_separated (vs : list visit) : Prop :=
  match vs with
  | v :: ((w :: _) as t) => (v_rest w <> [] \/ v_phone v <> v_phone w) /\ exit_separated t
  | _ => True
  end.

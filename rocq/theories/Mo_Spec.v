(** Transcriptions and the utterances which have the frames for them. *)
From Coq Require Import String List Arith.
From Verif Require Import Prelude Graph_Model Gb_Spec Rp_Spec.
Import ListNotations.

(** Lines of an id and its units, one line per id; the units exist *)
Definition transcripts_ok (ul : list (string * string)) (trans : list (list string)) : Prop :=
  Forall (fun l => exists u sq, l = u :: sq /\ Forall (fun n => In n (map fst ul)) sq) trans /\
  NoDup (map (fun l => hd EmptyString l) trans).

Definition transcribed (trans : list (list string)) (u : string) (sq : list string) : Prop :=
  In (u :: sq) trans /\ sq <> [].

(** The utterance has as many frames as its transcription can have, or, without
    transcription, as some sequence of units of the loop *)
Definition long_enough (group : option string) (ul : list (string * string)) (units : list (string * graph))
  (trans : list (list string)) (u : string) (frames : nat) : Prop :=
  (forall sq, transcribed trans u sq -> exists ls, said units sq ls /\ length ls = frames) /\
  ((forall sq, ~ transcribed trans u sq) -> exists ls, sayable group ul units ls /\ length ls = frames).

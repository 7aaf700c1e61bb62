(** Specification vocabulary for the transcription of text by letters. *)
From Coq Require Import String List Arith Bool.
Import ListNotations.

(** A character belongs to the same phone as the characters [p] before it when
    it is a diacritic, or the b of gb. *)
Definition glued (combining : nat -> bool) (p : list nat) (c : nat) : Prop :=
  combining c = true \/ (c = 98 /\ p = [103]).

(** [ps] cuts [w] into phones: every character that is not the first of its
    phone is glued to what is before it in the phone, and the first character
    of a phone is not glued to the phone before. *)
Record cut (combining : nat -> bool) (w : list nat) (ps : list (list nat)) : Prop := {
  cut_all : concat ps = w;
  cut_nonempty : ~ In [] ps;
  cut_inside : forall p u c v, In p ps -> p = u ++ c :: v -> u <> [] -> glued combining u c;
  cut_between : forall l p c q r, ps = l ++ p :: (c :: q) :: r -> ~ glued combining p c
}.

(** The markers [...] of a transcription, and its words once cleaned and cut. *)
Inductive event : Type :=
| Marker
| Phones (ps : list (list nat)).

(** Reading [ev] from a point where a silence can be written or not. *)
Fixpoint render (speech : bool) (name : list nat -> string) (ev : list event) : list string :=
  match ev with
  | [] => []
  | Marker :: t => if speech then "sil"%string :: render false name t else render false name t
  | Phones [] :: t => render speech name t
  | Phones ps :: t => map name ps ++ render true name t
  end.

Definition no_double_sil (t : list string) : Prop :=
  forall u v, t <> u ++ "sil"%string :: "sil"%string :: v.

(** The last line of an utterance. *)
Definition last_line (lines : list (list (list nat))) (utt : list nat) (sent : list (list nat)) : Prop :=
  exists l r, lines = l ++ (utt :: sent) :: r /\ forall s, ~ In (utt :: s) r.

Section Text.
  Variables (isalnum combining : nat -> bool) (lower : nat -> list nat) (diacritics : bool).

  (** The characters that are kept. *)
  Definition kept (c : nat) : bool := isalnum c || (diacritics && combining c).
  Definition cleaned (w : list nat) : list nat := flat_map lower (filter kept w).

  (** What a token of the text stands for. *)
  Definition reads (w : list nat) (e : event) : Prop :=
    match e with
    | Marker => exists u, w = 91 :: u
    | Phones ps => (forall u, w <> 91 :: u) /\ cut combining (cleaned w) ps
    end.

  (** The phones of the text. *)
  Definition occurs (lines : list (list (list nat))) (p : list nat) : Prop :=
    exists utt sent w ps, last_line lines utt sent /\ In w sent /\ reads w (Phones ps) /\ In p ps.
End Text.

(** Specification vocabulary for the error-rate scripts: what it means to edit
    a token sequence.  Independent of the dynamic programs. *)
From Coq Require Import List Arith.
Import ListNotations.

Section Edit.
Context {A : Type}.

(** one insertion, deletion or substitution, anywhere in the sequence *)
Inductive edit1 : list A -> list A -> Prop :=
| edit_ins u v x : edit1 (u ++ v) (u ++ x :: v)
| edit_del u v x : edit1 (u ++ x :: v) (u ++ v)
| edit_sub u v x y : edit1 (u ++ x :: v) (u ++ y :: v).

(** a script of n edits *)
Inductive script : nat -> list A -> list A -> Prop :=
| script_nil a : script 0 a a
| script_step n a b c : edit1 a b -> script n b c -> script (S n) a c.

(** n is the least number of edits turning a into b *)
Definition distance (a b : list A) (n : nat) : Prop :=
  script n a b /\ forall m, script m a b -> n <= m.

(** adjacent elements differ *)
Fixpoint no_repeat (l : list A) : Prop :=
  match l with
  | x :: ((y :: _) as t) => x <> y /\ no_repeat t
  | _ => True
  end.

(** l is obtained from c by repeating each element one or more times *)
Inductive stretch : list A -> list A -> Prop :=
| stretch_nil : stretch [] []
| stretch_cons x n c l : stretch c l -> stretch (x :: c) (repeat x (S n) ++ l).

(** errors and words over the utterances of ref that hyp contains *)
Inductive corpus (hyp : list (nat * list A)) : list (nat * list A) -> nat -> nat -> Prop :=
| corpus_nil : corpus hyp [] 0 0
| corpus_hit k r h e ref es ws :
    In (k, h) hyp -> distance r h e -> corpus hyp ref es ws ->
    corpus hyp ((k, r) :: ref) (e + es) (length r + ws)
| corpus_miss k r ref es ws :
    (forall h, ~ In (k, h) hyp) -> corpus hyp ref es ws ->
    corpus hyp ((k, r) :: ref) es ws.

(** tokens translated with a dictionary, tokens without entry left out *)
Inductive translated (d : list (A * A)) : list A -> list A -> Prop :=
| translated_nil : translated d [] []
| translated_keep x y l l' :
    In (x, y) d -> translated d l l' -> translated d (x :: l) (y :: l')
| translated_drop x l l' :
    (forall y, ~ In (x, y) d) -> translated d l l' -> translated d (x :: l) l'.

(** tokens translated with a dictionary, where every token must be either
    unwanted or translatable; tokens unwanted before or after are left out *)
Inductive cleaned (d : list (A * A)) (unwanted : list A) : list A -> list A -> Prop :=
| cleaned_nil : cleaned d unwanted [] []
| cleaned_before x l l' :
    In x unwanted -> cleaned d unwanted l l' -> cleaned d unwanted (x :: l) l'
| cleaned_after x y l l' :
    ~ In x unwanted -> In (x, y) d -> In y unwanted ->
    cleaned d unwanted l l' -> cleaned d unwanted (x :: l) l'
| cleaned_keep x y l l' :
    ~ In x unwanted -> In (x, y) d -> ~ In y unwanted ->
    cleaned d unwanted l l' -> cleaned d unwanted (x :: l) (y :: l').

(** l' is l without the unwanted tokens *)
Inductive without (unwanted : list A) : list A -> list A -> Prop :=
| without_nil : without unwanted [] []
| without_drop x l l' : In x unwanted -> without unwanted l l' -> without unwanted (x :: l) l'
| without_keep x l l' : ~ In x unwanted -> without unwanted l l' -> without unwanted (x :: l) (x :: l').

End Edit.

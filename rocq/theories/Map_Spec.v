(** Specification vocabulary: overlaps, entropies. *)
From Coq Require Import List Arith Reals.
From Verif Require Import Prelude.
Import ListNotations.

Section Overlap.
Variables (ref hyp : nat -> option (list nat)).
(** number of frames t of the utterances [utts] where hyp is u and ref is p *)
Definition overlap (utts : list nat) (u p : nat) : nat :=
  list_sum (map (fun k => match ref k, hyp k with
    | Some r, Some h =>
        length (filter (fun t => match nth_error r t, nth_error h t with
                                 | Some x, Some y => (x =? p) && (y =? u)
                                 | _, _ => false end)%bool (seq 0 (length r)))
    | _, _ => 0 end) utts).
(** number of frames where the mapped hypothesis is right *)
Definition correct (f : nat -> nat) (utts : list nat) : nat :=
  list_sum (map (fun k => match ref k, hyp k with
    | Some r, Some h =>
        length (filter (fun t => match nth_error r t, nth_error h t with
                                 | Some x, Some y => x =? f y
                                 | _, _ => false end)%bool (seq 0 (length r)))
    | _, _ => 0 end) utts).
End Overlap.

Local Open Scope R_scope.
(** Shannon entropy (bits) of a distribution on the points of l *)
Definition entropy {A} (p : A -> R) (l : list A) : R :=
  - sumf (fun x => p x * (ln (p x) / ln 2)) l.
(** mutual information (bits) of a joint distribution on X x Y *)
Definition mutual {A B} (p : A -> B -> R) (X : list A) (Y : list B) : R :=
  sumf (fun x => sumf (fun y =>
    p x y * (ln (p x y / (sumf (fun y' => p x y') Y * sumf (fun x' => p x' y) X)) / ln 2)) Y) X.

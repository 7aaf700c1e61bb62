(** Specification vocabulary for segments. *)
From Coq Require Import List Arith ZArith.
Import ListNotations.

Section Seg.
Context {A : Type}.

(** each segment starts where the previous one ends *)
Fixpoint contiguous (gap : Z) (segs : list (Z * Z * A)) : Prop :=
  match segs with
  | (s, e, u) :: (((s', e', u') :: _) as t) => s' = (e + gap)%Z /\ contiguous gap t
  | _ => True
  end.
Definition seg_start (x : Z * Z * A) : Z := fst (fst x).
Definition seg_end (x : Z * Z * A) : Z := snd (fst x).
Definition seg_lab (x : Z * Z * A) : A := snd x.

(** runs: label and duration minus one *)
Definition unrun (rs : list (A * nat)) : list A :=
  flat_map (fun r => repeat (fst r) (S (snd r))) rs.
(** first frame of the k-th run *)
Fixpoint offset (rs : list (A * nat)) (k : nat) : nat :=
  match k, rs with
  | S k', r :: t => S (snd r) + offset t k'
  | _, _ => 0
  end.
End Seg.

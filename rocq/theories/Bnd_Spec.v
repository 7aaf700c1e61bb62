(** Specification vocabulary: change points and matchings. *)
From Coq Require Import List Arith ZArith.
Import ListNotations.
Local Open Scope Z_scope.

(** frame f (1-based) of l carries a label different from frame f-1 *)
Definition change_at {A} (l : list A) (f : Z) : Prop :=
  exists a b x y, l = a ++ x :: y :: b /\ x <> y /\ f = Z.of_nat (length a) + 2.

(** a one-to-one pairing of positions of ref with positions of hyp, pairs being
    within delta *)
Record matching (ref hyp : list Z) (delta : Z) (M : list (nat * nat)) : Prop := {
  m_ref : NoDup (map fst M);
  m_hyp : NoDup (map snd M);
  m_close : forall i j, In (i, j) M ->
    exists r h, nth_error ref i = Some r /\ nth_error hyp j = Some h /\
                Z.abs (h - r) <= delta }.

(** no pair can be added *)
Definition maximal (ref hyp : list Z) (delta : Z) (M : list (nat * nat)) : Prop :=
  forall i j r h, nth_error ref i = Some r -> nth_error hyp j = Some h ->
  Z.abs (h - r) <= delta -> In i (map fst M) \/ In j (map snd M).

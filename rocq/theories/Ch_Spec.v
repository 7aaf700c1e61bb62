(** Archives of features from which units can be discovered. *)
From Coq Require Import Reals List Arith.
From Verif Require Import Prelude.
Import ListNotations.
Local Open Scope R_scope.

(** Matrices with the same number of columns, none of them constant over the whole
    archive *)
Definition varies (c : nat) (frames : list (list R)) : Prop :=
  exists x y, In x frames /\ In y frames /\ nth c x 0 <> nth c y 0.

Definition archive_ok (D : nat) (utts : list (list (list R))) : Prop :=
  (1 <= D)%nat /\ utts <> [] /\ Forall (fun u => u <> [] /\ Forall (fun x => length x = D) u) utts /\
  forall c, (c < D)%nat -> varies c (concat utts).

(** Notions used to state the stick-breaking properties. *)
From Coq Require Import Reals List Arith Permutation.
From Verif Require Import Prelude.
Import ListNotations.
Local Open Scope R_scope.

(** An order of n components *)
Definition is_order (n : nat) (ord : list nat) : Prop := Permutation ord (seq 0 n).

(** Decreasing order of the counts: what torch.sort(descending=True) returns
    (which order among equal counts is left open). *)
Definition sorts_desc (counts : list R) (ord : list nat) : Prop :=
  is_order (length counts) ord /\
  forall i j, (i < j)%nat -> (j < length counts)%nat ->
    nth (nth j ord 0%nat) counts 0 <= nth (nth i ord 0%nat) counts 0.

Definition positive_sticks (c : list (R * R)) : Prop :=
  Forall (fun ab => 0 < fst ab /\ 0 < snd ab) c.

(** Count of the components strictly after position i of the order. *)
Definition tail_count (ord : list nat) (counts : list R) (i : nat) : R :=
  sumf (fun k => nth k counts 0) (skipn (S i) ord).

(** Weight of the component at position i of the order, given the expected
    fraction v k of the remaining stick taken by component k. *)
Definition broken_stick (v : nat -> R) (ord : list nat) (i : nat) : R :=
  v (nth i ord 0%nat) * rprod (map (fun k => 1 - v k) (firstn i ord)).

(** Specification vocabulary for the tables of counts of two alignments: which
    frames are compared, and what a table of counts must contain. *)
From Coq Require Import List Arith Bool Reals.
From Verif Require Import Prelude Edit_Model.
Import ListNotations.
Local Open Scope R_scope.

(** [d] has one entry per symbol of [ks], its number of occurrences plus eps *)
Definition tallies (eps : R) (d : list (nat * R)) (ks : list nat) : Prop :=
  NoDup (map fst d) /\
  forall k v, In (k, v) d <-> In k ks /\ v = eps + INR (count_occ Nat.eq_dec ks k).

(** the hypothesis symbols of the frames whose reference symbol is r *)
Definition against (fr : list (nat * nat)) (r : nat) : list nat :=
  map snd (filter (fun f => fst f =? r)%nat fr).

(** the frames of two alignments: as many as the shorter has, in order *)
Fixpoint paired (rs hs : nat -> nat) (a b : list nat) : list (nat * nat) :=
  match a, b with
  | x :: a', y :: b' => (rs x, hs y) :: paired rs hs a' b'
  | _, _ => []
  end.

(** empirical joint probability of the frames *)
Definition pairs_at (fr : list (nat * nat)) (r h : nat) : nat :=
  length (filter (fun f => (fst f =? r) && (snd f =? h))%nat%bool fr).
Definition empirical (fr : list (nat * nat)) (r h : nat) : R :=
  INR (pairs_at fr r h) / INR (length fr).

(** What the posteriors of a phone-loop should be. *)
From Coq Require Import Reals String List Arith Bool.
From Verif Require Import Prelude FB_Model FB_Spec HMM_Spec Graph_Model Gb_Spec.
Import ListNotations.
Local Open Scope R_scope.

(** Probability, given the frames, that the path has a property *)
Definition chance (g : cgraph) (rows : list row) (Q : list nat -> bool) : R :=
  expect g rows (fun p => if Q p then 1 else 0).

(** The state s is one of those of the unit. *)
Definition owned (h : graph) (s : nat) : bool :=
  existsb (fun st : nat * option nat => match snd st with Some q => Nat.eqb q s | None => false end) (g_states h).

(** A unit begins with its first state and ends with its last one. *)
Definition straight (t : list (nat * nat * R)) : Prop :=
  exists n, contiguous t n /\ single_entry t n 1 /\ single_exit t n (n - 2).

(** With --state *)
Definition state_posts (g : cgraph) (rows : list row) (P : list (list R)) : Prop :=
  length P = length rows /\
  forall t, (t < length rows)%nat -> length (nth t P []) = cg_n g /\ rsum (nth t P []) = 1 /\
    forall s, (s < cg_n g)%nat -> nth s (nth t P []) 0 = chance g rows (fun p => Nat.eqb (nth t p 0%nat) s).

(** Without: the probability of being in the unit, last state excepted *)
Definition unit_posts (units : list (string * graph)) (ends : list nat) (g : cgraph) (rows : list row) (U : list (list R)) : Prop :=
  length U = length rows /\
  forall t, (t < length rows)%nat -> length (nth t U []) = length units /\
    rsum (nth t U []) = 1 - chance g rows (fun p => existsb (Nat.eqb (nth t p 0%nat)) ends) /\
    forall i u e, nth_error units i = Some u -> nth_error ends i = Some e ->
      nth i (nth t U []) 0 = chance g rows (fun p => owned (snd u) (nth t p 0%nat) && negb (Nat.eqb (nth t p 0%nat) e)).

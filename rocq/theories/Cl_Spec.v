(** What a compiled graph accepts: sequences of indices with positive initial,
    transition and final probabilities. *)
From Coq Require Import Reals List Arith Bool.
From Verif Require Import Prelude Graph_Model Graph_Spec.
Import ListNotations.
Local Open Scope R_scope.

Inductive linked (m : nat -> nat -> R) : list nat -> Prop :=
| linked_one i : linked m [i]
| linked_cons i j l : 0 < m i j -> linked m (j :: l) -> linked m (i :: j :: l).

Definition chain_accepts (c : compiled) (ls : list nat) : Prop :=
  exists vi vf l i, c_init c = Some vi /\ c_final c = Some vf /\
    (forall k, In k (i :: l) -> (k < c_n c)%nat) /\
    map (fun k => nth k (c_map c) 0%nat) (i :: l) = ls /\
    0 < vi i /\ linked (c_trans c) (i :: l) /\ 0 < vf (last l i).

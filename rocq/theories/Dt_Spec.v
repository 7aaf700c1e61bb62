(** What the rounds of Dt_Model.v should achieve. *)
From Coq Require Import Reals List Arith Bool Permutation.
From Verif Require Import Prelude Vec Set_Model Vt_Model Vt_Spec.
Import ListNotations.
Local Open Scope R_scope.

(** Every utterance of the data set is given to exactly one job. *)
Definition splits (utts : list utt) (jobs : list (list nat)) : Prop :=
  Permutation (concat jobs) (seq 0 (length utts)).

(** Number of frames of the data set *)
Definition nframes (utts : list utt) : nat := list_sum (map (fun u => length (u_stats u)) utts).

(** The groups of parameters the rounds update, one after the other *)
Definition turns (groups : list (list nat)) (lrate : R) (first n : nat) : list (R * list nat) :=
  map (fun i => (lrate, nth (i mod length groups) groups [])) (seq first n).

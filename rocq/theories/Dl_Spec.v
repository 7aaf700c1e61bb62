(** What the rounds of Dl_Model.v should achieve. *)
From Coq Require Import Reals List Arith Bool Permutation.
From Verif Require Import Prelude Vec Set_Model Vt_Model Vl_Model.
Import ListNotations.
Local Open Scope R_scope.

(** Every utterance of the data set is given to exactly one job. *)
Definition shares (xs : list lutt) (jobs : list (list nat)) : Prop :=
  Permutation (concat jobs) (seq 0 (length xs)).

(** Number of frames of the data set *)
Definition loop_frames (xs : list lutt) : nat := list_sum (map (fun x => length (lu_stats x)) xs).

(** The n-th round: the groups of the emissions take turns, and the weights are
    updated together with the first one. *)
Definition loop_turn (eg : list (list nat)) (lrate : R) (n : nat) : R * bool * list nat :=
  let k := Nat.max 1 (length eg) in
  (lrate, Nat.eqb (n mod k) 0, nth (n mod k) eg []).

Definition loop_turns (eg : list (list nat)) (lrate : R) (first n : nat) : list (R * bool * list nat) :=
  map (loop_turn eg lrate) (seq first n).

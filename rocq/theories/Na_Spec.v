(** Utterances a graph cannot produce. *)
From Coq Require Import Reals List Arith.
From Verif Require Import Prelude FB_Model FB_Spec HMM_Spec Set_Model Vt_Model Opt_Model Opt_Pipe Na_Model.
Import ListNotations.
Local Open Scope R_scope.

(** No path of this number of frames has a positive probability before the data
    are seen. *)
Definition no_path (g : cgraph) (T : nat) : Prop :=
  forall p, In p (paths (cg_n g) T) -> prior_prob g T p = 0.

Definition has_path (g : cgraph) (T : nat) : Prop :=
  exists p, In p (paths (cg_n g) T) /\ 0 < prior_prob g T p.

(** NaN everywhere *)
Definition nans (n : nat) : list (option R) := repeat None n.

(** An utterance whose frames and graph are those of the model *)
Definition fits (d : nat) (m : mset) (u : utt) : Prop :=
  u_stats u <> [] /\ Forall (fun r => length r = d) (u_stats u) /\
  (forall o, In o (u_order u) -> (o < size m)%nat) /\ length (u_order u) = cg_n (u_graph u).

(** Every emission is the one of a state of the graph. *)
Definition covers (m : mset) (u : utt) : Prop := forall k, (k < size m)%nat -> In k (u_order u).

Definition impossible (u : utt) : Prop := no_path (u_graph u) (length (u_stats u)).
Definition possible (u : utt) : Prop := has_path (u_graph u) (length (u_stats u)).

(** An utterance of numbers only *)
Definition numbers (b : batch) : nbatch :=
  {| nb_llh := map Some (b_llh b); nb_acc := map (fun pv => (fst pv, map Some (snd pv))) (b_acc b) |}.

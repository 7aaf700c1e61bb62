(** What the values printed by the commands (Lg_Model.v) are. *)
From Coq Require Import Reals List Arith Bool.
From Verif Require Import Prelude Vec FB_Model FB_Spec Set_Model Set_Spec HMM_Model HMM_Spec Vt_Model Vt_Spec.
Import ListNotations.
Local Open Scope R_scope.

(** Log-likelihood of an utterance given its state path, averaged over the
    posterior distribution of the path *)
Definition utt_llh (scale : R) (skel : mset) (st : state) (u : utt) : R :=
  expect (u_graph u) (frames scale (utt_ems skel st u) (u_stats u))
    (path_loglik scale (utt_ems skel st u) (u_stats u)).

Definition per_frame (scale : R) (skel : mset) (st : state) (u : utt) : R :=
  utt_llh scale skel st u / INR (length (u_stats u)).

Definition mean (l : list R) : R := rsum l / INR (length l).

(** Every utterance counts the same, whatever its length. *)
Definition reported (scale : R) (ds : nat) (skel : mset) (kl : R) (st : state) (utts : list utt) : R :=
  mean (map (per_frame scale skel st) utts) - kl / INR ds.

(** The utterances of a job *)
Definition of_job {A} (d : A) (xs : list A) (j : list nat) : list A := map (fun i => nth i xs d) j.

(** One state, which every path visits all the time *)
Definition one_state (g : cgraph) : Prop :=
  cg_n g = 1%nat /\ cg_init g 0%nat = Fin 0 /\ cg_trans g 0%nat 0%nat = Fin 0 /\ cg_final g 0%nat = Fin 0.

(** Convergence of the training of the phone-loops: what a training run cannot
    change. *)
From Coq Require Import Reals List.
From Verif Require Import Prelude FB_Model Set_Model Set_Spec Dist_Model NW_Model Vt_Model Vl_Model Cv_Spec.
Import ListNotations.
Local Open Scope R_scope.

(** The priors of the emissions, and the transitions that do not leave a phone
    for the beginning of another *)
Definition loop_kept (l : ploop) (skel : mset) (a : state) (tra : nat -> nat -> lp) (b : state) (trb : nat -> nat -> lp) : Prop :=
  priors_kept skel a b /\
  forall i j, ~ (In i (pl_ends l) /\ In j (pl_starts l)) -> trb i j = tra i j.

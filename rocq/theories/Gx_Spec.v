(** How far a step of the training of a mixture moves the posteriors of the
    weights and of the components.  The moves of stick-breaking weights are not
    counted. *)
From Coq Require Import Reals List.
From Verif Require Import Prelude Set_Model Set_Spec Dist_Model SB_Model Sk_Model Vt_Model Gn_Spec Mx_Model.
Import ListNotations.
Local Open Scope R_scope.

Definition weights_moved (old new : wpar) : R :=
  match old, new with
  | WDir _ q, WDir _ q' => dir_kl q q'
  | _, _ => 0
  end.

Definition mix_moved (skel : mset) (old new : mixst) : R :=
  weights_moved (mx_weights old) (mx_weights new) + total_moved skel (mx_comps old) (mx_comps new).

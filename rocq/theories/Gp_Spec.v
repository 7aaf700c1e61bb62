(** How far a step of the training of a phone-loop moves the posteriors of the
    weights and of the emissions.  The moves of stick-breaking weights are not
    counted. *)
From Coq Require Import Reals List.
From Verif Require Import Prelude Set_Model Set_Spec Dist_Model SB_Model Sk_Model Vt_Model Gn_Spec Mx_Model Gx_Spec Pw_Model.
Import ListNotations.
Local Open Scope R_scope.

Definition loop_moved (skel : mset) (old new : pwst) : R :=
  weights_moved (pw_weights old) (pw_weights new) + total_moved skel (pw_pars old) (pw_pars new).

(** Convergence of the variational training: the models that a training run can
    reach have the priors it begins with. *)
From Coq Require Import Reals List.
From Verif Require Import Prelude Set_Model Set_Spec Dist_Model NW_Model Vt_Model.
Import ListNotations.
Local Open Scope R_scope.

Definition prior_kept (a b : cell) : Prop :=
  match a, b with
  | CDiag p _, CDiag p' _ => p = p'
  | CIso p _, CIso p' _ => p = p'
  | CFull p _, CFull p' _ => p = p'
  | CWeights p _, CWeights p' _ => p = p'
  | _, _ => False
  end.

Definition priors_kept (skel : mset) (a b : state) : Prop :=
  forall p, In p (params skel) -> Forall2 prior_kept (a p) (b p).

(** How far a step of the training of Vt_Model.v moves the posteriors: the
    divergences KL(old posterior || new posterior), summed over the components
    of all the parameters. *)
From Coq Require Import Reals List.
From Verif Require Import Prelude Set_Model Set_Spec Dist_Model NW_Model Vt_Model.
Import ListNotations.
Local Open Scope R_scope.

Definition moved (old new : cell) : R :=
  match old, new with
  | CDiag _ q, CDiag _ q' => ng_kl q q'
  | CIso _ q, CIso _ q' => ig_kl q q'
  | CFull _ q, CFull _ q' => or_default 0 (nw_kl q q')
  | CWeights _ q, CWeights _ q' => dir_kl q q'
  | _, _ => 0
  end.

Definition total_moved (skel : mset) (old new : state) : R :=
  sumf (fun p => sumf (fun cs => moved (fst cs) (snd cs)) (combine (old p) (new p))) (params skel).

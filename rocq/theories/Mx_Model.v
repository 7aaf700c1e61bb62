(** Variational training of a Mixture (beer/models/mixture.py) over any nesting
    of sets, with any of the three models of the mixing weights: Categorical,
    SBCategorical, SBCategoricalHyperPrior (beer/models/categorical.py).

    One step is: objective on one batch, backward, optimiser step.  The batch
    has the frames of all the utterances; w is datasize / minibatch size. *)
From Coq Require Import Reals List Arith Bool.
From Verif Require Import Prelude Vec Lgamma Edit_Model Dec_Model Set_Model Set_Spec HMM_Model Dist_Model Mat NW_Model
  SB_Model Sk_Model Vt_Model.
Import ListNotations.
Local Open Scope R_scope.

(** The model of the weights with its prior and posterior *)
Inductive wpar : Type :=
| WDir (prior post : list R)
| WStick (prior : list stick) (ord : list nat) (post : list stick)
| WHyper (gprior : gamma_par) (h : hyper).

(** mixture.py:45-48 with categorical.py:70-76 or 158-160 *)
Definition mx_log_weights (n : nat) (c : wpar) : list R :=
  match c with
  | WDir _ q => mixture_log_weights (dir_ess q)
  | WStick _ o q => map (sb_ellh o q) (eye n)
  | WHyper _ h => map (sb_ellh (h_ord h) (h_sticks h)) (eye n)
  end.

(** mixture.py:97-99 with categorical.py:64-65, 78-79 or 151-153, 162-163, then
    objectives.py:98-107 *)
Definition mx_weights_stats (w : R) (n : nat) (c : wpar) (resps : mat) : list R :=
  match c with
  | WDir _ _ => vscale w (colsum n (map cat_stats resps))
  | _ => vscale w (colsum n resps)
  end.

(** parameters.py:134-141, with the callbacks of categorical.py *)
Definition mx_weights_update (sort : list R -> list nat) (lrate : R) (stats : list R) (c : wpar) : wpar :=
  match c with
  | WDir p q => WDir p (std_update dir_nat dir_from_nat lrate p q stats)
  | WStick p _ q => let (o, q') := sb_update sort lrate p q stats in WStick p o q'
  | WHyper g h => WHyper g (hyper_update sort lrate g h stats)
  end.

(** parameters.py:79-80 *)
Definition mx_weights_kl (c : wpar) : R :=
  match c with
  | WDir p q => dir_kl q p
  | WStick p _ q => sb_kl q p
  | WHyper _ h => sb_kl (h_sticks h) (h_prior h)
  end.

(** A mixture: the weights, and the components of the parameters of the set *)
Record mixst : Type := { mx_weights : wpar; mx_comps : state }.

(** A frame (its sufficient statistics) with its label, when labels are given *)
Notation lframe := (list R * option nat)%type.

(** mixture.py:70-93 on a batch: value and responsibilities of each frame *)
Definition mx_frames (skel : mset) (frames : list lframe) (s : mixst) : result (list (R * list R)) :=
  let m := inst (forms (mx_comps s)) skel in
  let lw := mx_log_weights (size m) (mx_weights s) in
  mapM (fun f => mixture_ellh (ellh m (fst f)) lw (snd f)) frames.

(** objectives.py:176-184 with basemodel.py:64-77: what is reported *)
Definition mx_objective (w : R) (skel : mset) (frames : list lframe) (s : mixst) : result R :=
  bindr (mx_frames skel frames s) (fun vr =>
  Ok (w * rsum (map fst vr)
      - (mx_weights_kl (mx_weights s) +
         rsum (map (fun p => rsum (map cell_kl (mx_comps s p))) (params skel))))).

(** mixture.py:95-102, objectives.py:92-107 and optimizers.py:26-31: the groups
    pair the weights with the first group of the set (mixture.py:57-65); [uw]
    says whether the weights are in the group being updated. *)
Definition mx_step (sort : list R -> list nat) (w lrate : R) (uw : bool) (group : list nat)
  (skel : mset) (frames : list lframe) (s : mixst) : result mixst :=
  bindr (mx_frames skel frames s) (fun vr =>
  let m := inst (forms (mx_comps s)) skel in
  let resps := map snd vr in
  Ok {| mx_weights := if uw then mx_weights_update sort lrate (mx_weights_stats w (size m) (mx_weights s) resps) (mx_weights s)
                      else mx_weights s;
        mx_comps := apply_step w lrate group [accumulate m (map fst frames) resps] (mx_comps s) |}).

(** Several steps, each with its learning rate and its group *)
Fixpoint mx_train (sort : list R -> list nat) (w : R) (steps : list (R * bool * list nat))
  (skel : mset) (frames : list lframe) (s : mixst) : result mixst :=
  match steps with
  | [] => Ok s
  | (lrate, uw, group) :: t =>
      bindr (mx_step sort w lrate uw group skel frames s) (mx_train sort w t skel frames)
  end.

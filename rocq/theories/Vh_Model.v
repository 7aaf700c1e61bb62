(** Training of an HMM with any of the three kinds of inference: all the state
    paths, the best path, or a path given with the utterance
    (/repo/beer/models/hmm.py:40-62, 73-100; /repo/recipes/timit_v2/utils/
    hmm-train-with-alignments.py:83-100 trains with given paths).  As in Vt_Model.v but for the
    kind of inference, which is chosen for each utterance. *)
From Coq Require Import Reals List Arith Bool.
From Verif Require Import Prelude Vec Lgamma FB_Model Edit_Model Dec_Model Set_Model Set_Spec
  HMM_Model Dist_Model Mat NW_Model Vt_Model.
Import ListNotations.
Local Open Scope R_scope.

(** hmm.py:73-100: expected log-likelihood, then accumulation *)
Definition hutt_acc (amax : nat -> (nat -> lp) -> nat) (scale : R) (m : mset) (um : utt * infer)
  : option sdict :=
  let (u, mode) := um in
  match hmm_ellh amax m (u_graph u) (u_order u) (u_own u) mode scale (u_stats u) with
  | Ok (_, c) => hmm_accumulate m (cg_n (u_graph u)) (u_order u) c (u_stats u)
  | Err _ => None
  end.

(** One step of training, as [train_step] of Vt_Model.v *)
Definition htrain_step (amax : nat -> (nat -> lp) -> nat) (scale w lrate : R) (group : list nat)
  (skel : mset) (utts : list (utt * infer)) (st : state) : option state :=
  match all_some (map (hutt_acc amax scale (inst (forms st) skel)) utts) with
  | Some Ds => Some (apply_step w lrate group Ds st)
  | None => None
  end.

Fixpoint htrain (amax : nat -> (nat -> lp) -> nat) (scale w : R)
  (steps : list (R * list nat)) (skel : mset) (utts : list (utt * infer)) (st : state) : option state :=
  match steps with
  | [] => Some st
  | (lrate, group) :: t =>
      match htrain_step amax scale w lrate group skel utts st with
      | Some st' => htrain amax scale w t skel utts st'
      | None => None
      end
  end.

(** objectives.py:60-107, 170-190: what is reported, the expected
    log-likelihoods of all the frames minus the divergences; None when a value is
    NaN or when the inference raises *)
Definition hutt_value (amax : nat -> (nat -> lp) -> nat) (scale : R) (m : mset) (um : utt * infer)
  : option R :=
  let (u, mode) := um in
  match hmm_ellh amax m (u_graph u) (u_order u) (u_own u) mode scale (u_stats u) with
  | Ok (v, _) => match all_some v with Some l => Some (rsum l) | None => None end
  | Err _ => None
  end.

Definition hobjective (amax : nat -> (nat -> lp) -> nat) (scale w : R) (skel : mset)
  (utts : list (utt * infer)) (st : state) : option R :=
  match all_some (map (hutt_value amax scale (inst (forms st) skel)) utts) with
  | Some vs => Some (w * rsum vs - rsum (map (fun p => rsum (map cell_kl (st p))) (params skel)))
  | None => None
  end.

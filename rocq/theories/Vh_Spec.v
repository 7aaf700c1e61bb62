(** The bounds the training of Vh_Model.v should not decrease. *)
From Coq Require Import Reals List Arith Bool.
From Verif Require Import Prelude Vec Lgamma FB_Model FB_Spec Edit_Model Dec_Model Set_Model Set_Spec
  HMM_Model HMM_Spec Dist_Model Dist_Spec Mat NW_Model NW_Spec Vt_Model Vt_Spec Vh_Model.
Import ListNotations.
Local Open Scope R_scope.

(** The largest of non-negative numbers *)
Definition largest {A} (f : A -> R) (l : list A) : R := fold_right (fun a m => Rmax (f a) m) 0 l.

(** Score of an utterance: the logarithm of the sum, or of the largest, of the
    joint probabilities of the data and of the state paths; or the log-likelihood
    along the given path *)
Definition utt_score (scale : R) (skel : mset) (st : state) (um : utt * infer) : R :=
  let (u, mode) := um in
  let ls := frames scale (utt_ems skel st u) (u_stats u) in
  match mode with
  | Soft => ln (evidence (u_graph u) ls)
  | Viterbi => ln (largest (path_prob (u_graph u) ls) (paths (cg_n (u_graph u)) (length (u_stats u))))
  | Aligned p => path_loglik scale (utt_ems skel st u) (u_stats u) p
  end.

Definition hbound (scale w : R) (skel : mset) (utts : list (utt * infer)) (st : state) : R :=
  w * sumf (utt_score scale skel st) utts - total_kl skel st.

(** Utterances for which the inference does not raise: no state of the path
    exceeds the number of frames (C72) *)
Definition hutt_ok (k : kind) (D : nat) (skel : mset) (um : utt * infer) : Prop :=
  let (u, mode) := um in
  utt_ok k D skel u /\
  match mode with
  | Soft => True
  | Viterbi => (cg_n (u_graph u) <= length (u_stats u))%nat
  | Aligned p => length p = length (u_stats u) /\
      Forall (fun s => (s < cg_n (u_graph u))%nat /\ (s < length (u_stats u))%nat) p
  end.

(** The paths the statistics are collected on, with their weights *)
Inductive collected (scale : R) (skel : mset) (st : state) : utt * infer -> list (R * list nat) -> Prop :=
| col_soft : forall u,
    let ls := frames scale (utt_ems skel st u) (u_stats u) in
    collected scale skel st (u, Soft)
      (map (fun p => (path_prob (u_graph u) ls p / evidence (u_graph u) ls, p)) (paths (cg_n (u_graph u)) (length (u_stats u))))
| col_best : forall u p,
    let ls := frames scale (utt_ems skel st u) (u_stats u) in
    In p (paths (cg_n (u_graph u)) (length (u_stats u))) ->
    (forall p', In p' (paths (cg_n (u_graph u)) (length (u_stats u))) -> path_prob (u_graph u) ls p' <= path_prob (u_graph u) ls p) ->
    collected scale skel st (u, Viterbi) [(1, p)]
| col_given : forall u p, collected scale skel st (u, Aligned p) [(1, p)].

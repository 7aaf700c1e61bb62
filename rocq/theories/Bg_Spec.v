(** What the training of Bg_Model.v should achieve. *)
From Coq Require Import Reals List Arith Bool.
From Verif Require Import Prelude Vec Lgamma FB_Model FB_Spec Edit_Model Dec_Model Set_Model Set_Spec
  HMM_Model HMM_Spec Dist_Model Dist_Spec Mat NW_Model NW_Spec SB_Model SB_Spec Sk_Model Sk_Spec
  Vt_Model Vt_Spec Vl_Model Vl_Spec Mx_Model Mx_Spec Df_Model Pl_Model Bg_Model.
Import ListNotations.
Local Open Scope R_scope.

(** The i-th of the lists of length K that are in one list *)
Definition slice (K i : nat) (c : list (R * R)) : list (R * R) := firstn K (skipn (i * K) c).

(** Expectation of the logarithm of the probability of the k-th phone after the
    i-th one *)
Definition elog_next (K : nat) (b : bset) (i k : nat) : R :=
  match b with
  | BCat _ q => digamma (nth k (nth i q []) 0) - digamma (rsum (nth i q []))
  | BStick _ o _ q => stick_elog o (slice K i q) k
  end.

(** The set has one proper distribution of K phones for each of n phones. *)
Definition bg_ok (n K : nat) (b : bset) : Prop :=
  match b with
  | BCat p q => length p = n /\ length q = n /\ Forall (dir_ok K) p /\ Forall (dir_ok K) q
  | BStick m o p q =>
      m = n /\ is_order K o /\ length p = (n * K)%nat /\ length q = (n * K)%nat /\ positive_sticks p /\ positive_sticks q
  end.

(** Divergence of the posterior of the set from its prior *)
Definition bg_kl (b : bset) : R :=
  match b with
  | BCat p q => sumf (fun i => dir_cross (nth i q []) (nth i q []) - dir_cross (nth i q []) (nth i p [])) (seq 0 (length q))
  | BStick _ _ p q =>
      sumf (fun j => beta_cross (nth j q (0, 0)) (nth j q (0, 0)) - beta_cross (nth j q (0, 0)) (nth j p (0, 0)))
        (seq 0 (length q))
  end.

(** The distribution a transition is taken from: the one of the i-th phone for
    the transition from it to the k-th one, except with a CategoricalSet (C20). *)
Definition elog_used (K : nat) (b : bset) (i k : nat) : R :=
  match b with BCat _ _ => elog_next K b k i | BStick _ _ _ _ => elog_next K b i k end.

Definition bg_tuned (l : ploop) (b : bset) (tr : nat -> nat -> lp) : Prop :=
  (forall e, In e (pl_ends l) -> ex (tr e e) <= 1) /\
  forall i k, (i < length (pl_ends l))%nat -> (k < length (pl_starts l))%nat ->
    let e := nth i (pl_ends l) 0%nat in
    ex (tr e (nth k (pl_starts l) 0%nat)) = (1 - ex (tr e e)) * exp (elog_used (length (pl_starts l)) b i k).

(** One end state per phone *)
Definition bg_loop_ok (l : ploop) : Prop := loop_ok l /\ length (pl_ends l) = length (pl_starts l).

Definition bg_good (k : kind) (D : nat) (l : ploop) (skel : mset) (s : bgst) : Prop :=
  typed k D (bg_pars s) skel /\ bg_ok (length (pl_ends l)) (length (pl_starts l)) (bg_set s) /\
  bg_tuned l (bg_set s) (bg_trans s).

(** Utterances without alignment *)
Definition bg_utt_ok (k : kind) (D : nat) (l : ploop) (skel : mset) (s : bgst) (x : lutt) : Prop :=
  lu_ali x = None /\ utt_ok k D skel (lu_utt l (bg_trans s) x).

(** Evidence lower bound of the loop inference is done with *)
Definition bg_bound (scale w : R) (l : ploop) (skel : mset) (utts : list lutt) (s : bgst) : R :=
  w * sumf (fun x => let u := lu_utt l (bg_trans s) x in loglik scale skel (bg_pars s) (u_graph u) u) utts
  - (bg_kl (bg_set s) + total_kl skel (bg_pars s)).

(** Expected number of times that the k-th phone follows the i-th one *)
Definition bg_count (scale : R) (l : ploop) (skel : mset) (s : bgst) (x : lutt) (i k : nat) : R :=
  let u := lu_utt l (bg_trans s) x in
  expect (u_graph u) (frames scale (utt_ems skel (bg_pars s) u) (u_stats u))
    (bigram_count (nth i (pl_ends l) 0%nat) (nth k (pl_starts l) 0%nat)).

(** The set of a loop made by the commands (Pl_Model.v) *)
Definition bset_of (w : weights) : option bset :=
  match w with
  | WCatSet p q => Some (BCat p q)
  | WSBSet n p q root => Some (BStick n (sb_ord root) p q)
  | _ => None
  end.

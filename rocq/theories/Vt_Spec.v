(** What the training of Vt_Model.v should achieve: the evidence lower bound,
    written with the sums over the state paths and the mixture sums. *)
From Coq Require Import Reals List Arith Bool.
From Verif Require Import Prelude Vec Lgamma FB_Model FB_Spec Edit_Model Dec_Model Set_Model Set_Spec
  HMM_Model HMM_Spec Dist_Model Dist_Spec Mat NW_Model NW_Spec Vt_Model.
Import ListNotations.
Local Open Scope R_scope.

(** The kinds of leaves; all the leaves of a model see the same statistics. *)
Inductive kind : Type := KDiag | KIso | KFull | KCat.

Definition suff (k : kind) : list R -> list R :=
  match k with
  | KDiag => nd_suff_stats
  | KIso => in_suff_stats
  | KFull => nl_suff_stats
  | KCat => cat_suff_stats
  end.

Definition suff_dim (k : kind) (D : nat) : nat :=
  match k with
  | KDiag => 2 * D + 2
  | KIso => D + 3
  | KFull => D + (D * D + 2)
  | KCat => D
  end.

(** Frames: vectors of dimension D, of non-negative counts for the
    categorical leaves *)
Definition frame_ok (k : kind) (D : nat) (x : list R) : Prop :=
  length x = D /\ match k with KCat => x <> [] /\ Forall (fun v => 0 <= v) x | _ => True end.

(** Proper components *)
Definition leaf_cell (k : kind) (D : nat) (c : cell) : Prop :=
  match k, c with
  | KDiag, CDiag p q => ng_ok D p /\ ng_ok D q
  | KIso, CIso p q => ig_ok D p /\ ig_ok D q
  | KFull, CFull p q => nw_ok D p /\ nw_ok D q
  | KCat, CWeights p q => dir_ok D p /\ dir_ok D q
  | _, _ => False
  end.

Definition weights_cell (n : nat) (c : cell) : Prop :=
  match c with CWeights p q => dir_ok n p /\ dir_ok n q | _ => False end.

(** The parameters of the sets have the components the sets need. *)
Fixpoint typed (k : kind) (D : nat) (st : state) (m : mset) : Prop :=
  match m with
  | Leaf p d nform _ =>
      d = suff_dim k D /\ length nform = length (st p) /\ Forall (leaf_cell k D) (st p)
  | Joint l => (fix ts l := match l with [] => True | m :: t => typed k D st m /\ ts t end) l
  | Rep m r => typed k D st m /\ (0 < r)%nat
  | Mix p cform m =>
      typed k D st m /\ (0 < length cform)%nat /\ length cform = length (st p) /\
      exists n, (0 < n)%nat /\ size m = (length cform * n)%nat /\ Forall (weights_cell n) (st p)
  end.

(** Utterances some state sequence of the graph can produce *)
Definition utt_ok (k : kind) (D : nat) (skel : mset) (u : utt) : Prop :=
  u_stats u <> [] /\
  (exists xs, u_stats u = map (suff k) xs /\ Forall (frame_ok k D) xs) /\
  (forall o, In o (u_order u) -> (o < size skel)%nat) /\
  length (u_order u) = cg_n (u_graph u) /\
  exists p, In p (paths (cg_n (u_graph u)) (length (u_stats u))) /\
            0 < prior_prob (u_graph u) (length (u_stats u)) p.

(** The emissions of the states of an utterance *)
Definition utt_ems (skel : mset) (st : state) (u : utt) : list em :=
  map (fun o => nth o (denote (inst (forms st) skel)) e0) (u_order u).

(** Sum over the parameters of the KL divergences of their components *)
Definition total_kl (skel : mset) (st : state) : R :=
  sumf (fun p => sumf cell_kl (st p)) (params skel).

(** Evidence lower bound.  The log-evidence of an utterance sums over all the
    state paths and all the mixture components. *)
Definition bound (scale w : R) (skel : mset) (utts : list utt) (st : state) : R :=
  w * sumf (fun u => ln (evidence (u_graph u) (frames scale (utt_ems skel st u) (u_stats u)))) utts
  - total_kl skel st.

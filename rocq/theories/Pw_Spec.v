(** What the training of Pw_Model.v should achieve. *)
From Coq Require Import Reals List Arith Bool.
From Verif Require Import Prelude Vec Lgamma FB_Model FB_Spec Edit_Model Dec_Model Set_Model Set_Spec
  HMM_Model HMM_Spec Dist_Model Dist_Spec Mat NW_Model NW_Spec SB_Model SB_Spec Sk_Model Sk_Spec
  Vt_Model Vt_Spec Vl_Model Vl_Spec Mx_Model Mx_Spec Df_Model Pl_Model Pw_Model.
Import ListNotations.
Local Open Scope R_scope.

(** The transitions leaving the phones are those of the weights. *)
Definition pw_tuned (l : ploop) (w : wpar) (tr : nat -> nat -> lp) : Prop :=
  (forall e, In e (pl_ends l) -> ex (tr e e) <= 1) /\
  forall e k, In e (pl_ends l) -> (k < length (pl_starts l))%nat ->
    ex (tr e (nth k (pl_starts l) 0%nat)) = (1 - ex (tr e e)) * exp (elog_weight w k).

Definition pw_good (k : kind) (D : nat) (l : ploop) (skel : mset) (s : pwst) : Prop :=
  typed k D (pw_pars s) skel /\ mxw_ok (length (pl_starts l)) (pw_weights s) /\
  pw_tuned l (pw_weights s) (pw_trans s).

Definition pw_utt_ok (k : kind) (D : nat) (l : ploop) (skel : mset) (s : pwst) (x : lutt) : Prop :=
  utt_ok k D skel (lu_utt l (pw_trans s) x).

(** Evidence lower bound of the loop inference is done with *)
Definition pw_bound (scale w : R) (l : ploop) (skel : mset) (utts : list lutt) (s : pwst) : R :=
  w * sumf (fun x => let u := lu_utt l (pw_trans s) x in loglik scale skel (pw_pars s) (u_graph u) u) utts
  - (weights_kl (pw_weights s) + total_kl skel (pw_pars s)).

(** The same loop, its first phone being drawn with the weights as well *)
Definition pw_first (l : ploop) (w : wpar) (g : cgraph) : cgraph :=
  {| cg_n := cg_n g; cg_trans := cg_trans g; cg_final := cg_final g;
     cg_init := fun i => match position i (pl_starts l) with
                         | Some k => ladd (cg_init g i) (Fin (elog_weight w k))
                         | None => cg_init g i
                         end |}.

Definition pw_drawn (scale w : R) (l : ploop) (skel : mset) (utts : list lutt) (s : pwst) : R :=
  w * sumf (fun x => let u := lu_utt l (pw_trans s) x in
         loglik scale skel (pw_pars s)
           (if u_own u then pw_first l (pw_weights s) (u_graph u) else u_graph u) u) utts
  - (weights_kl (pw_weights s) + total_kl skel (pw_pars s)).

(** Expectation of a function of the path, for an utterance trained on the loop *)
Definition pw_expect (scale : R) (l : ploop) (skel : mset) (s : pwst) (x : lutt) (f : list nat -> R) : R :=
  match lu_ali x with
  | Some _ => 0
  | None => let u := lu_utt l (pw_trans s) x in
            expect (u_graph u) (frames scale (utt_ems skel (pw_pars s) u) (u_stats u)) f
  end.

(** Expected number of utterances that begin with the k-th phone (0 or 1 each),
    and of occurrences of the k-th phone *)
Definition pw_first_count (scale : R) (l : ploop) (skel : mset) (s : pwst) (x : lutt) (k : nat) : R :=
  pw_expect scale l skel s x (fun p => if Nat.eqb (nth 0 p 0%nat) (nth k (pl_starts l) 0%nat) then 1 else 0).

Definition pw_count (scale : R) (l : ploop) (skel : mset) (s : pwst) (x : lutt) (k : nat) : R :=
  pw_expect scale l skel s x (phone_starts (pl_ends l) (nth k (pl_starts l) 0%nat)).

(** The weights of a loop made by the command (Pl_Model.v) *)
Definition wpar_of (w : weights) : option wpar :=
  match w with
  | WCat p q => Some (WDir p q)
  | WSB s =>
      Some (match sb_hyper s with
            | None => WStick (sb_prior s) (sb_ord s) (sb_post s)
            | Some g => WHyper g {| h_ord := sb_ord s; h_sticks := sb_post s; h_prior := sb_prior s; h_gamma := g |}
            end)
  | _ => None
  end.

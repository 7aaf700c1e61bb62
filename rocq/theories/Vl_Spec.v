(** What the training of Vl_Model.v should achieve. *)
From Coq Require Import Reals List Arith Bool.
From Verif Require Import Prelude Vec Lgamma FB_Model FB_Spec Edit_Model Dec_Model Set_Model Set_Spec
  HMM_Model HMM_Spec Dist_Model Dist_Spec Mat NW_Model NW_Spec Vt_Model Vt_Spec Vl_Model.
Import ListNotations.
Local Open Scope R_scope.

(** Phones of at least two states *)
Definition loop_ok (l : ploop) : Prop :=
  NoDup (pl_starts l) /\ NoDup (pl_ends l) /\ (forall e, In e (pl_ends l) -> ~ In e (pl_starts l)) /\
  pl_starts l <> [] /\
  (forall s, In s (pl_starts l) -> (s < cg_n (pl_graph l))%nat) /\
  (forall e, In e (pl_ends l) -> (e < cg_n (pl_graph l))%nat).

(** One Dirichlet distribution over the phones *)
Definition weights_ok (l : ploop) (st : state) : Prop :=
  exists c, st (pl_weights l) = [c] /\ weights_cell (length (pl_starts l)) c.

(** Expected log-weight of the k-th phone under the posterior *)
Definition elogw (l : ploop) (st : state) (k : nat) : R :=
  match st (pl_weights l) with
  | [CWeights _ q] => digamma (nth k q 0) - digamma (rsum q)
  | _ => 0
  end.

(** The transitions leaving the phones are those of the weights. *)
Definition tuned (l : ploop) (s : lstate) : Prop :=
  (forall e, In e (pl_ends l) -> ex (ls_trans s e e) <= 1) /\
  forall e k, In e (pl_ends l) -> (k < length (pl_starts l))%nat ->
    ex (ls_trans s e (nth k (pl_starts l) 0%nat)) =
    (1 - ex (ls_trans s e e)) * exp (elogw l (ls_pars s) k).

Definition good (k : kind) (D : nat) (l : ploop) (skel : mset) (s : lstate) : Prop :=
  typed k D (ls_pars s) skel /\ weights_ok l (ls_pars s) /\ tuned l s.

Definition lutt_ok (k : kind) (D : nat) (l : ploop) (skel : mset) (s : lstate) (x : lutt) : Prop :=
  utt_ok k D skel (lu_utt l (ls_trans s) x).

Definition loop_kl (l : ploop) (skel : mset) (st : state) : R :=
  total_kl skel st + sumf cell_kl (st (pl_weights l)).

(** Log-evidence of an utterance under the graph [g] *)
Definition loglik (scale : R) (skel : mset) (st : state) (g : cgraph) (u : utt) : R :=
  ln (evidence g (frames scale (utt_ems skel st u) (u_stats u))).

(** Evidence lower bound of the loop inference is done with *)
Definition loop_bound (scale w : R) (l : ploop) (skel : mset) (utts : list lutt) (s : lstate) : R :=
  w * sumf (fun x => let u := lu_utt l (ls_trans s) x in loglik scale skel (ls_pars s) (u_graph u) u) utts
  - loop_kl l skel (ls_pars s).

(** The same loop, its first phone being drawn with the weights as well *)
Fixpoint position (i : nat) (l : list nat) : option nat :=
  match l with
  | [] => None
  | x :: t => if Nat.eqb i x then Some 0%nat else option_map S (position i t)
  end.

Definition first_drawn (l : ploop) (st : state) (g : cgraph) : cgraph :=
  {| cg_n := cg_n g; cg_trans := cg_trans g; cg_final := cg_final g;
     cg_init := fun i => match position i (pl_starts l) with
                         | Some k => ladd (cg_init g i) (Fin (elogw l st k))
                         | None => cg_init g i
                         end |}.

Definition drawn_bound (scale w : R) (l : ploop) (skel : mset) (utts : list lutt) (s : lstate) : R :=
  w * sumf (fun x => let u := lu_utt l (ls_trans s) x in
         loglik scale skel (ls_pars s)
           (if u_own u then first_drawn l (ls_pars s) (u_graph u) else u_graph u) u) utts
  - loop_kl l skel (ls_pars s).

(** Expected number of utterances, among those trained on the graph of the loop,
    that begin with the k-th phone *)
Definition first_count (scale : R) (l : ploop) (skel : mset) (s : lstate) (x : lutt) (k : nat) : R :=
  match lu_ali x with
  | Some _ => 0
  | None => let u := lu_utt l (ls_trans s) x in
            expect (u_graph u) (frames scale (utt_ems skel (ls_pars s) u) (u_stats u))
              (fun p => if Nat.eqb (nth 0 p 0%nat) (nth k (pl_starts l) 0%nat) then 1 else 0)
  end.

(** The graph of a loop made of one phone at the beginning *)
Definition one_initial (g : cgraph) (i0 : nat) : Prop :=
  forall i, i <> i0 -> cg_init g i = NInf.

(** Variational training of an HMM whose emissions are any nesting of sets
    (leaf, joint, repeated and mixture sets): the loop objective, backward,
    optimiser step of the training scripts, on the posteriors of the
    parameters themselves.

    The graph is fixed (HMM; the phone weights of a PhoneLoop are not part of
    this model).  The statistics of all the utterances of one step are summed
    (objectives.py:10-34, 78-90) and multiplied by the ratio datasize /
    minibatch size (objectives.py:98-107), here the number w. *)
From Coq Require Import Reals List Arith Bool.
From Verif Require Import Prelude Vec Lgamma FB_Model Edit_Model Dec_Model Set_Model
  HMM_Model Dist_Model Mat NW_Model.
Import ListNotations.
Local Open Scope R_scope.

(** One component of a ConjugateBayesianParameter, parameters.py:83-141: its
    prior and its posterior.  [CDiag], [CIso], [CFull] are the parameters of
    the Normal sets (normalset.py:18-78), [CWeights] those of the categorical
    sets (categoricalset.py). *)
Inductive cell : Type :=
| CDiag (prior post : ng_par)
| CIso (prior post : ing_par)
| CFull (prior post : nw_par)
| CWeights (prior post : list R).

(** The Cholesky factorisation and the inverse used by NormalWishart raise on
    improper parameters; the default is never used on proper ones (C38). *)
Definition or_default {A} (d : A) (r : result A) : A :=
  match r with Ok a => a | Err _ => d end.

(** parameters.py:131-132, natural_form: the expected sufficient statistics
    under the posterior *)
Definition cell_form (c : cell) : list R :=
  match c with
  | CDiag _ q => ng_ess q
  | CIso _ q => ig_ess q
  | CFull _ q => or_default [] (nw_ess q)
  | CWeights _ q => dir_ess q
  end.

(** parameters.py:79-80, kl_div_posterior_prior, of one component *)
Definition cell_kl (c : cell) : R :=
  match c with
  | CDiag p q => ng_kl q p
  | CIso p q => ig_kl q p
  | CFull p q => or_default 0 (nw_kl q p)
  | CWeights p q => dir_kl q p
  end.

(** parameters.py:134-141, natural_grad_update *)
Definition cell_update (lrate : R) (stats : list R) (c : cell) : cell :=
  match c with
  | CDiag p q => CDiag p (std_update ng_nat ng_from_nat lrate p q stats)
  | CIso p q => CIso p (std_update ig_nat ig_from_nat lrate p q stats)
  | CFull p q => CFull p (or_default q (nw_update lrate p q stats))
  | CWeights p q => CWeights p (std_update dir_nat dir_from_nat lrate p q stats)
  end.

(** The components of every parameter, by the name of the parameter. *)
Definition state : Type := nat -> list cell.

Definition forms (st : state) (p : nat) : mat := map cell_form (st p).

(** The sets of a model whose parameters have the natural forms [tab]: the
    natural forms of the skeleton are replaced. *)
Fixpoint inst (tab : nat -> mat) (m : mset) : mset :=
  match m with
  | Leaf p d _ c => Leaf p d (tab p) c
  | Joint l => Joint ((fix go l := match l with [] => [] | m :: t => inst tab m :: go t end) l)
  | Rep m r => Rep (inst tab m) r
  | Mix p _ m => Mix p (tab p) (inst tab m)
  end.

(** An utterance: its graph, the emission of each state, and the sufficient
    statistics of its frames. *)
Record utt : Type := {
  u_graph : cgraph;
  u_order : list nat;
  u_own : bool;
  u_stats : mat
}.

(** objectives.py:176-190: expected log-likelihood then accumulation, hmm.py:73-100 *)
Definition utt_acc (amax : nat -> (nat -> lp) -> nat) (scale : R) (m : mset) (u : utt)
  : option sdict :=
  match hmm_ellh amax m (u_graph u) (u_order u) (u_own u) Soft scale (u_stats u) with
  | Ok (_, c) => hmm_accumulate m (cg_n (u_graph u)) (u_order u) c (u_stats u)
  | Err _ => None
  end.

(** The statistics of the k-th component of the parameter p *)
Definition row_of (p k : nat) (D : sdict) : list R :=
  match dget Nat.eq_dec D p with Some M => nth k M [] | None => [] end.

(** objectives.py:78-107: sum over the utterances, times the data scale *)
Definition total (w : R) (n p k : nat) (Ds : list sdict) : list R :=
  vscale w (colsum n (map (row_of p k) Ds)).

(** optimizers.py:26-31: only the parameters of one group are updated (the
    groups have no repeated parameter) *)
Definition apply_step (w lrate : R) (group : list nat) (Ds : list sdict) (st : state) : state :=
  fun p =>
    if existsb (Nat.eqb p) group
    then map2 (fun k c => cell_update lrate (total w (length (cell_form c)) p k Ds) c)
           (seq 0 (length (st p))) (st p)
    else st p.

(** One step of training: None when the statistics are not defined. *)
Definition train_step (amax : nat -> (nat -> lp) -> nat) (scale w lrate : R) (group : list nat)
  (skel : mset) (utts : list utt) (st : state) : option state :=
  match all_some (map (utt_acc amax scale (inst (forms st) skel)) utts) with
  | Some Ds => Some (apply_step w lrate group Ds st)
  | None => None
  end.

(** Several steps on the same utterances, each with its learning rate and its
    group of parameters *)
Fixpoint train (amax : nat -> (nat -> lp) -> nat) (scale w : R)
  (steps : list (R * list nat)) (skel : mset) (utts : list utt) (st : state) : option state :=
  match steps with
  | [] => Some st
  | (lrate, group) :: t =>
      match train_step amax scale w lrate group skel utts st with
      | Some st' => train amax scale w t skel utts st'
      | None => None
      end
  end.

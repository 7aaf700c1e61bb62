(** The training of an HMM with the commands `beer hmm accumulate` and
    `beer hmm update` (beer/cli/subcommands/hmm/accumulate.py, update.py), as
    the recipes run them (recipes/aud/steps/aud.sh:108-131): each round starts
    one accumulate job per part of the data set, all with the same model on
    disk, then one update which reads the files of all the jobs.

    This model puts together those of the commands (Opt_Model.v: objectives,
    optimiser and its state file, on vectors of natural parameters), of the
    HMM (HMM_Model.v) and of the posteriors (Vt_Model.v).  A matrix of
    parameters or statistics is here the vector of its rows, one after the
    other. *)
From Coq Require Import Reals List Arith Bool ZArith.
From Verif Require Import Prelude Vec Lgamma FB_Model Edit_Model Dec_Model Set_Model Set_Spec
  HMM_Model Dist_Model Mat NW_Model Vt_Model Opt_Model.
Import ListNotations.
Local Open Scope R_scope.

(** ** The parameters of the model as the optimiser sees them *)

(** natural_parameters() of the prior and of the posterior of one component:
    dirichlet.py, normalgamma.py, isonormalgamma.py, normalwishart.py *)
Definition cell_prior (c : cell) : list R :=
  match c with
  | CDiag p _ => ng_nat p
  | CIso p _ => ig_nat p
  | CFull p _ => or_default [] (nw_nat p)
  | CWeights p _ => dir_nat p
  end.

Definition cell_post (c : cell) : list R :=
  match c with
  | CDiag _ q => ng_nat q
  | CIso _ q => ig_nat q
  | CFull _ q => or_default [] (nw_nat q)
  | CWeights _ q => dir_nat q
  end.

(** parameters.py:83-113.  The emissions of an HMM have no callbacks. *)
Definition heap_of (st : state) : heap :=
  fun p => {| p_prior := concat (map cell_prior (st p));
              p_post := concat (map cell_post (st p));
              p_stats := vzeros (length (concat (map cell_post (st p))));
              p_cbs := [] |}.

(** update_from_natural_parameters, parameters.py:141, of one component *)
Definition cell_set (c : cell) (n : list R) : result cell :=
  match c with
  | CDiag p _ => Ok (CDiag p (ng_from_nat n))
  | CIso p _ => Ok (CIso p (ig_from_nat n))
  | CFull p _ => bindr (nw_from_nat n) (fun q => Ok (CFull p q))
  | CWeights p _ => Ok (CWeights p (dir_from_nat n))
  end.

Fixpoint cells_set (cs : list cell) (v : list R) : result (list cell) :=
  match cs with
  | [] => Ok []
  | c :: t =>
      let d := length (cell_post c) in
      bindr (cell_set c (firstn d v)) (fun c' =>
      bindr (cells_set t (skipn d v)) (fun t' => Ok (c' :: t')))
  end.

(** The posteriors after the update.  The code does not convert the parameters
    the optimiser did not touch; here all are converted (the conversion back and
    forth changes nothing: C33, C36, C37, C38). *)
Definition reload (ps : list nat) (h : heap) (st : state) : result state :=
  foldM (fun s p => bindr (cells_set (st p) (p_post (h p))) (fun cs =>
           Ok (fun q => if Nat.eqb q p then cs else s q))) ps st.

(** ** One utterance: objectives.py:176-190, hmm.py:73-100, called by
    accumulate.py:56-60.  NaN statistics (no path of that length) are an error
    here; Na_Model has them (C184). *)
Definition batch_of (amax : nat -> (nat -> lp) -> nat) (scale : R) (m : mset) (u : utt)
  : result batch :=
  bindr (hmm_ellh amax m (u_graph u) (u_order u) (u_own u) Soft scale (u_stats u)) (fun vc =>
  match all_some (fst vc), hmm_accumulate m (cg_n (u_graph u)) (u_order u) (snd vc) (u_stats u) with
  | Some v, Some d => Ok {| b_llh := v; b_acc := map (fun pm => (fst pm, concat (snd pm))) d |}
  | _, _ => Err OtherError
  end).

(** model.kl_div_posterior_prior(), basemodel.py *)
Definition model_kl (skel : mset) (st : state) : R :=
  rsum (map (fun p => rsum (map cell_kl (st p))) (params skel)).

(** ** One round.  A job is the list of the ids of its utterances, here their
    positions in the data set.  All the utterances are processed before they are
    shared out: what the model computes of an utterance does not depend on the
    job.  An empty job writes its file before its final message fails with a
    division by zero.  [saved] is the file given with -o; without this option ([keep] is
    false) it is neither read nor written. *)
Definition data_of (amax : nat -> (nat -> lp) -> nat) (scale : R) (m : mset) (utts : list utt)
  : result (list (nat * batch)) :=
  bindr (mapM (batch_of amax scale m) utts) (fun bs => Ok (combine (seq 0 (length utts)) bs)).

Definition round (enum : list nat -> list nat) (amax : nat -> (nat -> lp) -> nat) (scale : R)
  (ds : nat) (skel : mset) (groups : list (list nat)) (lrate : R) (keep : bool) (utts : list utt)
  (jobs : list (list nat)) (x : state * option (R * nat)) : result (state * option (R * nat)) :=
  let (st, saved) := x in
  bindr (data_of amax scale (inst (forms st) skel) utts) (fun data =>
  bindr (mapM (accumulate_main enum (params skel) (model_kl skel st) ds data) jobs) (fun accs =>
  bindr (update_main enum (params skel) groups lrate (if keep then saved else None) (heap_of st) accs)
    (fun hs =>
  bindr (reload (params skel) (fst hs) st) (fun st' =>
  Ok (st', if keep then Some (snd hs) else saved))))).

(** The rounds of a training, each with its own jobs: aud.sh:108-131 *)
Definition rounds (enum : list nat -> list nat) (amax : nat -> (nat -> lp) -> nat) (scale : R)
  (ds : nat) (skel : mset) (groups : list (list nat)) (lrate : R) (keep : bool) (utts : list utt)
  (jobss : list (list (list nat))) (x : state * option (R * nat)) : result (state * option (R * nat)) :=
  foldM (fun x jobs => round enum amax scale ds skel groups lrate keep utts jobs x) jobss x.

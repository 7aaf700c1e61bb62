(** The commands of acoustic unit discovery one after the other, from an archive
    of features to the units of its utterances:
    - beer dataset create (/repo/beer/cli/subcommands/dataset/create.py:13-55,
      Fe_Model.accumulate),
    - beer hmm mkphones (Em_Model.mkphones_all),
    - mkphoneloopgraph, mkdecodegraph and mkphoneloop (Rp_Model.make_loop),
    - the rounds of accumulate and update (Dl_Model.loop_rounds), with the size of
      the data set written by the first command (accumulate.py:37),
    - beer hmm decode (De_Model.decode_utt).

    - The features are exact: the conversions to single precision of create.py
      and cli/dataset.py are the identity.
    - The utterances come in the order of the archive; the ids are their ranks.
    - No alignment graphs are given. *)
From Coq Require Import Reals String List Arith Bool.
From Verif Require Import Prelude Vec Fe_Model FB_Model Graph_Model Gb_Model Set_Model HMM_Model Dist_Model Vt_Model Vl_Model
  SB_Model Sk_Model Mx_Spec Pl_Model Pw_Model Pw_Spec Bg_Model Bg_Spec Dl_Model Db_Model Rp_Model Em_Model De_Model.
Import ListNotations.
Local Open Scope R_scope.

(** create.py:24: the number of columns of the first utterance *)
Definition columns (utts : list (list (list R))) : nat := length (hd [] (hd [] utts)).

(** accumulate.py:50-56 and decode.py:79-86 without alignments: the statistics of
    the frames (modelset.py:68-69) *)
Definition utterance (cov : string) (u : list (list R)) : lutt :=
  {| lu_ali := None; lu_stats := map (cov_stats cov) u |}.

(** [cov]: the covariance type of the first group.  The bigram priors (TypeError here)
    are in the other definition. *)
Definition train_all (enum : list nat -> list nat) (sort : list R -> list nat) (amax : nat -> (nat -> lp) -> nat)
  (eps : R) (prior : option string) (conc : option R) (draw : nat -> nat -> nat -> R) (conf : phconf) (lines : list (list string))
  (group : option string) (wid : nat) (scale lrate : R) (cov : string) (utts : list (list (list R))) (jobss : list (list (list nat)))
  : result (ploop * list (string * graph) * mset * pwst) :=
  bindr (Fe_Model.accumulate (columns utts) utts) (fun cs =>
  bindr (mkphones_all (cs_mean cs) (cs_var cs) draw conf lines) (fun up =>
  let ps := snd up in
  bindr (em_groups ps) (fun eg =>
  bindr (make_loop eps prior conc (topologies conf) lines group wid) (fun lt =>
  let l := fst (fst (fst lt)) in
  match wpar_of (lo_weights (snd (fst (fst lt)))) with
  | None => Err TypeError
  | Some w =>
      bindr (loop_rounds enum sort amax scale (cs_count cs) l (em_set ps) wid eg lrate true (map (utterance cov) utts) jobss
               (pw_init l w (em_state ps), None)) (fun sv =>
      Ok (l, snd (fst lt), em_set ps, fst sv))
  end)))).

(** decode.py:69-87 for all the utterances of an archive *)
Definition decode_all (amax : nat -> (nat -> lp) -> nat) (scale : R) (per_frame : bool) (cov : string)
  (t : ploop * list (string * graph) * mset * pwst) (utts : list (list (list R))) : result (list (list string)) :=
  let '(l, units, em, s) := t in
  mapM (fun u => decode_utt amax scale per_frame (inst (forms (pw_pars s)) em) l (map fst units) (pw_trans s) (utterance cov u)) utts.

(** The same with the bigram priors (Db_Model.bg_rounds) *)
Definition train_all_bigram (enum : list nat -> list nat) (amax : nat -> (nat -> lp) -> nat)
  (eps : R) (prior : option string) (conc : option R) (draw : nat -> nat -> nat -> R) (conf : phconf) (lines : list (list string))
  (group : option string) (wid : nat) (scale lrate : R) (cov : string) (utts : list (list (list R))) (jobss : list (list (list nat)))
  : result (ploop * list (string * graph) * mset * bgst) :=
  bindr (Fe_Model.accumulate (columns utts) utts) (fun cs =>
  bindr (mkphones_all (cs_mean cs) (cs_var cs) draw conf lines) (fun up =>
  let ps := snd up in
  bindr (em_groups ps) (fun eg =>
  bindr (make_loop eps prior conc (topologies conf) lines group wid) (fun lt =>
  let l := fst (fst (fst lt)) in
  match bset_of (lo_weights (snd (fst (fst lt)))) with
  | None => Err TypeError
  | Some b =>
      bindr (bg_rounds enum amax scale (cs_count cs) l (em_set ps) wid eg lrate true (map (utterance cov) utts) jobss
               (bg_init l b (em_state ps), None)) (fun sv =>
      Ok (l, snd (fst lt), em_set ps, fst sv))
  end)))).

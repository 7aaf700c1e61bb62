(** Training phones from transcriptions:
    /repo/recipes/aud/steps/monophone.sh:64-150 and align.sh:60-76.  As in
    Ch_Model.v, with in addition
    - beer hmm mkaligraph (Pa_Model.mkali) run by several jobs, each on a part of
      the transcriptions, which write into the same directory (monophone.sh:91-107);
    - accumulate --alis and decode -a, which look for the graph of each utterance
      (accumulate.py:33-56, decode.py:51-54 and 73-78) and use that of the loop
      when there is none.

    - The utterances are pairs of an id and its frames, in the order of the
      archive.
    - The files of a job which fails stay; the recipe stops.
    - decode.py:54 has no allow_pickle: np.load is assumed to give back the graphs
      that were saved, as numpy did before 1.16.3. *)
From Coq Require Import Reals String List Arith Bool.
From Verif Require Import Prelude Vec Fe_Model FB_Model Graph_Model Gb_Model Pa_Model Set_Model HMM_Model Dist_Model Vt_Model Vl_Model
  SB_Model Sk_Model Mx_Spec Pl_Model Pw_Model Pw_Spec Dl_Model Rp_Model Em_Model De_Model Ch_Model.
Import ListNotations.
Local Open Scope R_scope.

Definition utt := (string * list (list R))%type.

(** monophone.sh:91-104: the directory after the jobs *)
Fixpoint ali_jobs (pg : list (string * graph)) (jobs : list (list (list string))) (files : list (string * compiled))
  : result (list (string * compiled)) :=
  match jobs with
  | [] => Ok files
  | lines :: t => let (files, r) := mkali true pg lines files 0 in bindr r (fun _ => ali_jobs pg t files)
  end.

(** accumulate.py:49-60 and decode.py:73-86 *)
Definition with_ali (cov : string) (files : list (string * compiled)) (u : utt) : lutt :=
  {| lu_ali := match sget (fst u) files with Ok c => Some (to_cgraph c, c_map c) | Err _ => None end;
     lu_stats := map (cov_stats cov) (snd u) |}.

(** monophone.sh:64-150.  [ajobs]: the transcriptions given to each job *)
Definition train_alis (enum : list nat -> list nat) (sort : list R -> list nat) (amax : nat -> (nat -> lp) -> nat)
  (eps : R) (prior : option string) (conc : option R) (draw : nat -> nat -> nat -> R) (conf : phconf) (lines : list (list string))
  (group : option string) (wid : nat) (scale lrate : R) (cov : string) (utts : list utt) (ajobs : list (list (list string)))
  (jobss : list (list (list nat)))
  : result (ploop * list (string * graph) * list (string * compiled) * mset * pwst) :=
  bindr (Fe_Model.accumulate (columns (map snd utts)) (map snd utts)) (fun cs =>
  bindr (mkphones_all (cs_mean cs) (cs_var cs) draw conf lines) (fun up =>
  let ps := snd up in
  bindr (em_groups ps) (fun eg =>
  bindr (make_loop eps prior conc (topologies conf) lines group wid) (fun lt =>
  bindr (ali_jobs (fst (fst up)) ajobs []) (fun files =>
  let l := fst (fst (fst lt)) in
  match wpar_of (lo_weights (snd (fst (fst lt)))) with
  | None => Err TypeError
  | Some w =>
      bindr (loop_rounds enum sort amax scale (cs_count cs) l (em_set ps) wid eg lrate true (map (with_ali cov files) utts) jobss
               (pw_init l w (em_state ps), None)) (fun sv =>
      Ok (l, snd (fst lt), files, em_set ps, fst sv))
  end))))).

(** align.sh:60-66: the transcription of each frame of an utterance of the archive *)
Definition align_utt (amax : nat -> (nat -> lp) -> nat) (scale : R) (per_frame : bool) (cov : string)
  (t : ploop * list (string * graph) * list (string * compiled) * mset * pwst) (u : utt) : result (list string) :=
  let '(l, units, files, em, s) := t in
  decode_utt amax scale per_frame (inst (forms (pw_pars s)) em) l (map fst units) (pw_trans s) (with_ali cov files u).

(** Decoding of one utterance with a phone-loop:
    /repo/beer/cli/subcommands/hmm/decode.py:73-87, on top of HMM.decode
    (HMM_Model.v) and state2phone (Dec_Model.v).

    - state2phone works on numbers: a unit is represented by its rank in the
      dictionary start_pdf (whose keys are the names of the units, in the order of
      the HMMs of the units), and the names are put back at the end.
    - The utterances that are listed, and those which are missing from the data
      set, are in Dec_Model.v (C71). *)
From Coq Require Import Reals String List Arith Bool.
From Verif Require Import Prelude Vec Dec_Model FB_Model Set_Model HMM_Model Vt_Model Vl_Model.
Import ListNotations.
Local Open Scope R_scope.

(** model.start_pdf, mkdecodegraph.py:55-59 *)
Definition start_pdf (l : ploop) : list (nat * nat) := combine (seq 0 (length (pl_starts l))) (pl_starts l).

(** decode.py:79-86.  [m]: the emissions, [tr]: the transitions of the loop,
    [names]: the keys of start_pdf.  The graph is the one of the loop, or the
    alignment graph of the utterance. *)
Definition decode_path (amax : nat -> (nat -> lp) -> nat) (scale : R) (m : mset) (l : ploop) (tr : nat -> nat -> lp)
  (x : lutt) : result (list nat) :=
  let u := lu_utt l tr x in hmm_decode amax m (u_graph u) (u_order u) scale (u_stats u).

Definition decode_utt (amax : nat -> (nat -> lp) -> nat) (scale : R) (per_frame : bool) (m : mset) (l : ploop)
  (names : list string) (tr : nat -> nat -> lp) (x : lutt) : result (list string) :=
  bindr (decode_path amax scale m l tr x) (fun path =>
  bindr (state2phone path (start_pdf l) per_frame) (fun ps =>
  Ok (map (fun i => nth i names ""%string) ps))).

(** From the configuration to the phone-loop: the commands
    /repo/beer/cli/subcommands/hmm/{mkphones,mkphoneloopgraph,mkdecodegraph,
    mkphoneloop}.py one after the other, as in /repo/recipes/aud/steps/aud.sh:73-90.  The commands are those of Gb_Model.v and
    Pl_Model.v; the loop is the one of Vl_Model.v. *)
From Coq Require Import Reals String List Arith Bool.
From Verif Require Import Prelude Vec FB_Model Graph_Model Gb_Model Pa_Model Df_Model Pl_Model Vl_Model.
Import ListNotations.
Local Open Scope R_scope.

(** phoneloop.py:60-61: the values of start_pdf or end_pdf.  None as the pdf of
    an emitting state is not possible. *)
Definition pdf_values (d : list (string * option nat)) : result (list nat) :=
  mapM (fun x : string * option nat => match snd x with Some p => Ok p | None => Err OtherError end) d.

(** The loop, the HMMs of the units and the number of emissions of each group.
    mkphoneloop.py:58-67: the decoding graph is compiled by the last command. *)
Definition build_loop (conf : list (string * list (nat * nat * R))) (lines : list (list string)) (group : option string)
  (wid : nat) : result (ploop * list (string * graph) * list nat) :=
  bindr (mkphones conf lines) (fun ut =>
  bindr (mkphoneloopgraph group lines) (fun ps =>
  bindr (mkdecodegraph (fst ps) (snd ps) (fst ut)) (fun d =>
  bindr (compile (fst (fst d))) (fun c =>
  bindr (pdf_values (snd (fst d))) (fun starts =>
  bindr (pdf_values (snd d)) (fun ends =>
  Ok ({| pl_weights := wid; pl_graph := to_cgraph c; pl_order := c_map c; pl_starts := starts; pl_ends := ends |},
      fst ut, snd ut))))))).

(** mkphoneloop.py:55-85 *)
Definition make_loop (eps : R) (prior : option string) (conc : option R)
  (conf : list (string * list (nat * nat * R))) (lines : list (list string)) (group : option string)
  (wid : nat) : result (ploop * loop * list (string * graph) * list nat) :=
  bindr (build_loop conf lines group wid) (fun lut =>
  let l := fst (fst lut) in
  bindr (mkphoneloop eps prior conc (pl_starts l) (pl_ends l) (cg_trans (pl_graph l))) (fun lo =>
  Ok (l, lo, snd (fst lut), snd lut))).

(** The units of /repo/recipes/aud/conf/hmm.yml (and hmm_*g.yml, which differ by
    the mixtures and the initial noise only; the same files in recipes/hshmm) *)
Definition nonspeech_topology : list (nat * nat * R) :=
  [(0%nat, 1%nat, 1); (1%nat, 1%nat, / 4); (1%nat, 2%nat, / 4); (1%nat, 3%nat, / 4); (1%nat, 4%nat, / 4);
   (2%nat, 2%nat, / 4); (2%nat, 3%nat, / 4); (2%nat, 4%nat, / 4); (2%nat, 5%nat, / 4);
   (3%nat, 2%nat, / 4); (3%nat, 3%nat, / 4); (3%nat, 4%nat, / 4); (3%nat, 5%nat, / 4);
   (4%nat, 2%nat, / 4); (4%nat, 3%nat, / 4); (4%nat, 4%nat, / 4); (4%nat, 5%nat, / 4); (5%nat, 5%nat, 3 / 4); (5%nat, 6%nat, / 4)].
Definition speech_topology : list (nat * nat * R) :=
  [(0%nat, 1%nat, 1); (1%nat, 1%nat, 3 / 4); (1%nat, 2%nat, / 4); (2%nat, 2%nat, 3 / 4); (2%nat, 3%nat, / 4); (3%nat, 3%nat, 3 / 4); (3%nat, 4%nat, / 4)].
Definition aud_conf : list (string * list (nat * nat * R)) :=
  [("non-speech-unit", nonspeech_topology); ("speech-unit", speech_topology)]%string.

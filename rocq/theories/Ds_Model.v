(** Model of two steps of the recipe for acoustic unit discovery:
    /repo/recipes/aud/steps/decode.sh:65-82, which shares the decoding of a list
    of utterances between jobs, and /repo/recipes/aud/steps/score_aud.sh.

    - [dec u] is the line `beer hmm decode` prints for the utterance u
      (beer/cli/subcommands/hmm/decode.py:66-88), None when the program fails there.
      A job prints the lines one after the other.
    - The split directory and the tasks are those of Jb_Model.v; the file
      trans_ID is known by its number.  The tasks run one after the other in any
      order; they can be killed after any line.
    - [srt] is the command sort.
    - In score_aud.sh the python programs are functions (they are modelled in
      Map_Model.v, Edit_Model.v, Info_Model.v and Bnd_Model.v). *)
From Coq Require Import List Arith Bool Ascii.
From Verif Require Import Prelude Fe_Model Jb_Model Ep_Model.
Import ListNotations.
Local Open Scope nat_scope.

(** ** decode.sh *)
Section Decode.
  Variables (dec : str -> option str) (srt : list str -> list str).

  Record ddir : Type := {
    d_split : dir;                        (* split/ *)
    d_parts : list (nat * list str);      (* trans_ID *)
    d_trans : option (list str)           (* trans *)
  }.
  Definition set_part (s : ddir) (id : nat) (l : list str) : ddir :=
    {| d_split := d_split s; d_parts := putn (d_parts s) id l; d_trans := d_trans s |}.
  Definition part (s : ddir) (id : nat) : list str :=
    match getn (d_parts s) id with Some l => l | None => [] end.
  Definition set_trans (s : ddir) (l : list str) : ddir :=
    {| d_split := d_split s; d_parts := d_parts s; d_trans := Some l |}.

  Record dopts : Type := {
    d_njobs : nat;
    d_cut : nat -> nat;
    d_sched : list nat -> list nat
  }.

  Inductive dpc : Type :=
  | DSplit
  | DTasks (rest : list nat)
  | DTask (id : nat) (todo : list str) (rest : list nat)
  | DOpen
  | DWrite
  | DDone.

  (** decode.sh:65 *)
  Definition dstart (s : ddir) : dpc := match d_trans s with Some _ => DDone | None => DSplit end.

  Definition dmicro (o : dopts) (lines : list str) (ps : dpc * ddir) : dpc * ddir :=
    let (p, s) := ps in
    match p with
    (* submit_parallel.sh:22 *)
    | DSplit =>
        let d := split_sh (d_cut o) (d_njobs o) lines (d_split s) in
        (DTasks (d_sched o (tasks d)), {| d_split := d; d_parts := d_parts s; d_trans := d_trans s |})
    (* decode.sh:68-69: the output file of the command is emptied *)
    | DTasks (id :: rest) => (DTask id (task_input (d_split s) id) rest, set_part s id [])
    (* decode.py:87; a job that fails does not stop the recipe, see Ep_Model.v *)
    | DTask id (u :: todo) rest =>
        match dec u with
        | Some l => (DTask id todo rest, set_part s id (part s id ++ [l]))
        | None => (DTasks rest, s)
        end
    | DTask id [] rest => (DTasks rest, s)
    | DTasks [] => (DOpen, s)
    (* decode.sh:79: the shell makes the file, then sort writes it *)
    | DOpen => (DWrite, set_trans s [])
    | DWrite => (DDone, set_trans s (srt (concat (map snd (d_parts s)))))
    | DDone => (DDone, s)
    end.

  Definition dsteps (o : dopts) (lines : list str) (k : nat) (ps : dpc * ddir) : dpc * ddir :=
    Nat.iter k (dmicro o lines) ps.
  Definition drun (o : dopts) (lines : list str) (k : nat) (s : ddir) : dpc * ddir :=
    dsteps o lines k (dstart s, s).
  Definition druns (lines : list str) (l : list (dopts * nat)) (s : ddir) : ddir :=
    fold_left (fun s ok => snd (drun (fst ok) lines (snd ok) s)) l s.
  Definition dfresh : ddir := {| d_split := []; d_parts := []; d_trans := None |}.
End Decode.

(** ** score_aud.sh *)
Section Score.
  (** Alignments, mappings, counts and results *)
  Context {A P C X : Type}.
  Variables (counts_of : A -> A -> C) (mapping_of : A -> A -> P)     (* maxoverlap_mapping.py *)
            (map_trans : P -> A -> A)                                (* maptrans.py *)
            (per : A -> A -> X) (nmi : C -> X) (entropy : A -> X) (boundaries : A -> A -> X).

  (** The files of the output directory *)
  Record sfiles : Type := {
    f_counts : option C;
    f_per : option X;
    f_nmi : option X;
    f_entropy : option X;
    f_bound : option X
  }.

  Definition keep {B : Type} (old : option B) (new : B) : B := match old with Some x => x | None => new end.

  (** score_aud.sh:39-77.  Line 39 tests a file of the root directory
      (/au_phone_counts.yml: the variable oudir does not exist); [root] says
      whether there is one.  The variable au_mapping (the option --au-mapping,
      None when it was not given) is then set to the new mapping, line 43.
      Without a mapping maptrans.py fails and nothing stops the script; ter.py
      then reads an empty file: None. *)
  Definition score (root : bool) (au_mapping : option P) (ref hyp : A) (s : sfiles)
    : option (X * X * X * X * sfiles) :=
    let counts := if root then f_counts s else Some (counts_of ref hyp) in
    let mapping := if root then au_mapping else Some (mapping_of ref hyp) in
    match mapping, counts with
    | Some m, Some c =>
        let r1 := keep (f_per s) (per ref (map_trans m hyp)) in
        let r2 := keep (f_nmi s) (nmi c) in
        let r3 := keep (f_entropy s) (entropy hyp) in
        let r4 := keep (f_bound s) (boundaries ref hyp) in
        Some (r1, r2, r3, r4,
              {| f_counts := counts; f_per := Some r1; f_nmi := Some r2; f_entropy := Some r3; f_bound := Some r4 |})
    | _, _ => None
    end.

  Definition no_files : sfiles := {| f_counts := None; f_per := None; f_nmi := None; f_entropy := None; f_bound := None |}.
End Score.

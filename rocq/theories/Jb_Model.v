(** Model of the scripts that share a list between the jobs of a cluster:
    /repo/recipes/aud/utils/parallel/{split.sh, submit_parallel.sh,
    sge/parallel.sh, sge/jobarray.qsub} (recipes/timit_v2 and recipes/zrc2019
    have copies of split.sh, sge/parallel.sh and sge/jobarray.qsub).

    - Strings are lists of characters; a file is the list of its lines, without
      the new line characters (every line ends with one).
    - The split directory is the list of its files, name and content.
    - split -n l/N (coreutils) writes a line to the chunk in which its first
      byte falls.  Where the chunks begin depends on the version of the program:
      the model takes any function [cut] from the offset of a byte to the number
      of its chunk, from 0.  [gnu_cut] is the one of coreutils 8.
    - The scheduler gives each task its number, SGE_TASK_ID. *)
From Coq Require Import String List Arith Bool Ascii.
From Verif Require Import Prelude Nn_Model Fe_Model Ar_Model.
Import ListNotations.
Local Open Scope nat_scope.

Definition dir : Type := list (str * list str).

Fixpoint str_eq (a b : str) : bool :=
  match a, b with
  | [], [] => true
  | x :: a', y :: b' => Ascii.eqb x y && str_eq a' b'
  | _, _ => false
  end.

(** Writing a file: the content of an existing file is replaced. *)
Fixpoint put (d : dir) (name : str) (v : list str) : dir :=
  match d with
  | [] => [(name, v)]
  | (n, w) :: d' => if str_eq n name then (n, v) :: d' else (n, w) :: put d' name v
  end.
Definition del (d : dir) (name : str) : dir := filter (fun f => negb (str_eq (fst f) name)) d.

(** The offsets of the first bytes of the lines; a line has one more byte, the
    new line. *)
Fixpoint offsets (o : nat) (lines : list str) : list nat :=
  match lines with
  | [] => []
  | l :: t => o :: offsets (o + S (length l)) t
  end.
Definition chunk (cut : nat -> nat) (lines : list str) (k : nat) : list str :=
  map snd (filter (fun ol => cut (fst ol) =? k) (combine (offsets 0 lines) lines)).

(** coreutils 8: chunks of size / N bytes (at least 1), the last one has the
    remaining bytes. *)
Definition bytes (lines : list str) : nat := list_sum (map (fun l => S (length l)) lines).
Definition gnu_cut (N : nat) (lines : list str) (o : nat) : nat :=
  Nat.min (o / Nat.max 1 (bytes lines / N)) (N - 1).

(** split.sh:17,20: --numeric-suffixes=1 -a ${#n_split}, names of the files *)
Definition pad (w : nat) (s : str) : str := repeat "0"%char (w - length s) ++ s.
Definition xname (N i : nat) : str := "x"%char :: pad (length (dec N)) (dec i).

(** split.sh:14-22.  The directory may already exist (mkdir -p) with files in it. *)
Definition split_sh (cut : nat -> nat) (N : nat) (lines : list str) (d : dir) : dir :=
  let name := list_ascii_of_string "list" in
  let d1 := put d name lines in                                            (* cp *)
  let d2 := fold_left (fun d i => put d (xname N i) (chunk cut lines (i - 1))) (seq 1 N) d1 in (* split *)
  del d2 name.                                                              (* rm *)

(** jobarray.qsub:26, the pattern x*(0)ID: an x,
    any number of zeros, then the number of the task *)
Fixpoint zeros_then (s t : str) : bool :=
  str_eq s t || match s with c :: s' => Ascii.eqb c "0" && zeros_then s' t | [] => false end.
Definition matches (id : nat) (name : str) : bool :=
  match name with c :: s => Ascii.eqb c "x" && zeros_then s (dec id) | [] => false end.
(** jobarray.qsub:26: the standard input of the command of a task (nothing when
    no file matches: cat fails and its status is ignored) *)
Definition task_input (d : dir) (id : nat) : list str :=
  concat (map snd (filter (fun f => matches id (fst f)) d)).

(** parallel.sh:23: -t 1-$(ls $split_dir | wc -l) *)
Definition tasks (d : dir) : list nat := seq 1 (length d).

(** submit_parallel.sh:19-26: the new split directory and the inputs of the tasks *)
Definition submit (cut : nat -> nat) (N : nat) (lines : list str) (d : dir) : dir * list (list str) :=
  let d' := split_sh cut N lines d in (d', map (task_input d') (tasks d')).

(** jobarray.qsub:11: sed s/JOBID/$SGE_TASK_ID/g *)
Fixpoint after (p s : str) : option str :=
  match p, s with
  | [], _ => Some s
  | a :: p', b :: s' => if Ascii.eqb a b then after p' s' else None
  | _ :: _, [] => None
  end.
Fixpoint sed (fuel : nat) (pat rep s : str) : str :=
  match fuel with
  | 0 => s
  | S f => match after pat s with
           | Some r => rep ++ sed f pat rep r
           | None => match s with [] => [] | c :: t => c :: sed f pat rep t end
           end
  end.
Definition JOBID : str := list_ascii_of_string "JOBID".
Definition job_cmd (cmd : str) (id : nat) : str := sed (length cmd) JOBID (dec id) cmd.

(** The posteriors of a list of utterances computed by jobs and put in one
    archive: recipes/aud/steps/posteriors.sh:65-82, with the jobs of
    beer/cli/subcommands/hmm/posteriors.py:57-72.

    - The split directory and the tasks are those of Jb_Model.v.  The tasks run
      one after the other in any order; the recipe can be killed after any file.
    - Every run has its own temporary directory (mktemp), lost with the run.
    - zip makes the archive at once (it writes another file and renames it). *)
From Coq Require Import List Arith Bool Ascii.
From Verif Require Import Fe_Model Jb_Model.
Import ListNotations.
Local Open Scope nat_scope.

Section Posteriors.
  Context {B : Type}.
  (** posteriors.py:58-71 for one utterance: the array, no data for it
      (lines 58-62, the next one is taken), or a failure of the program *)
  Inductive outcome : Type := Val (b : B) | NoData | Crash.
  Variable comp : str -> outcome.

  (** Files UTT.npy: the content of an existing one is replaced *)
  Fixpoint puts (l : list (str * B)) (u : str) (b : B) : list (str * B) :=
    match l with
    | [] => [(u, b)]
    | (v, c) :: l' => if str_eq v u then (v, b) :: l' else (v, c) :: puts l' u b
    end.

  Record zdir : Type := mkz {
    z_split : dir;                        (* compute_posts/split *)
    z_tmp : list (str * B);               (* tmp.XXX *)
    z_npz : option (list (str * B))       (* posts.npz *)
  }.

  Record zopts : Type := {
    z_njobs : nat;
    z_cut : nat -> nat;
    z_sched : list nat -> list nat
  }.

  Inductive zpc : Type :=
  | ZSplit
  | ZTasks (rest : list nat)
  | ZTask (todo : list str) (rest : list nat)
  | ZZip
  | ZDone (status : bool).

  (** posteriors.sh:65-66 *)
  Definition zstart (s : zdir) : zpc * zdir :=
    match z_npz s with
    | Some _ => (ZDone true, s)
    | None => (ZSplit, mkz (z_split s) [] None)
    end.

  Definition zmicro (o : zopts) (lines : list str) (ps : zpc * zdir) : zpc * zdir :=
    let (p, s) := ps in
    match p with
    (* submit_parallel.sh:22 *)
    | ZSplit =>
        let d := split_sh (z_cut o) (z_njobs o) lines (z_split s) in
        (ZTasks (z_sched o (tasks d)), mkz d (z_tmp s) (z_npz s))
    | ZTasks (id :: rest) => (ZTask (task_input (z_split s) id) rest, s)
    (* posteriors.py:57-71; a job that fails does not stop the recipe *)
    | ZTask (u :: todo) rest =>
        match comp u with
        | Val b => (ZTask todo rest, mkz (z_split s) (puts (z_tmp s) u b) (z_npz s))
        | NoData => (ZTask todo rest, s)
        | Crash => (ZTasks rest, s)
        end
    | ZTask [] rest => (ZTasks rest, s)
    | ZTasks [] => (ZZip, s)
    (* posteriors.sh:78-79; zip fails when it has no file *)
    | ZZip => match z_tmp s with
              | [] => (ZDone false, s)
              | l => (ZDone true, mkz (z_split s) (z_tmp s) (Some l))
              end
    | ZDone b => (ZDone b, s)
    end.

  Definition zsteps (o : zopts) (lines : list str) (k : nat) (ps : zpc * zdir) : zpc * zdir :=
    Nat.iter k (zmicro o lines) ps.
  Definition zrun (o : zopts) (lines : list str) (k : nat) (s : zdir) : zpc * zdir := zsteps o lines k (zstart s).
  Definition zruns (lines : list str) (l : list (zopts * nat)) (s : zdir) : zdir :=
    fold_left (fun s ok => snd (zrun (fst ok) lines (snd ok) s)) l s.

  (** The output directory before *)
  Definition zfresh : zdir := mkz [] [] None.
End Posteriors.
Arguments outcome : clear implicits.
Arguments zdir : clear implicits.

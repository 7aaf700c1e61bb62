(** The extraction of the features by jobs: recipes/aud/steps/
    extract_features.sh:58-82 (extract_mbn_features.sh is the same with another
    program), with beer/cli/subcommands/features/extract.py:84-173 in the jobs
    and beer/cli/subcommands/features/archive.py:17-25.

    As Zp_Model.v, with other files: the temporary directory has a fixed name and
    is kept by a killed run, and the archive is written in place.

    - [key] is the utterance of a line of the list and [fea] its features, None
      when the program fails (extract.py:85-86).
    - The tasks run one after the other in any order.
    - The content of a file UTT.npy is None until it has been closed. *)
From Coq Require Import List Arith Bool Ascii.
From Verif Require Import Fe_Model Jb_Model Zp_Model.
Import ListNotations.
Local Open Scope nat_scope.

Section Features.
  Context {B : Type}.
  Variables (key : str -> str) (fea : str -> option B).

  (** An archive is whole once it has been closed *)
  Record xdir : Type := mkx {
    x_split : dir;                               (* split *)
    x_tmp : list (str * option B);               (* FEA_tmp *)
    x_npz : option (list (str * option B) * bool) (* FEA.npz *)
  }.

  Inductive xpc : Type :=
  | XSplit
  | XTasks (rest : list nat)
  | XTask (todo : list str) (rest : list nat)
  | XSave (l : str) (b : B) (todo : list str) (rest : list nat)
  | XOpen
  | XWrite
  | XRm
  | XDone.

  (** extract_features.sh:58 *)
  Definition xstart (s : xdir) : xpc := match x_npz s with Some _ => XDone | None => XSplit end.

  Definition xmicro (o : zopts) (lines : list str) (ps : xpc * xdir) : xpc * xdir :=
    let (p, s) := ps in
    match p with
    (* submit_parallel.sh:22 *)
    | XSplit =>
        let d := split_sh (z_cut o) (z_njobs o) lines (x_split s) in
        (XTasks (z_sched o (tasks d)), mkx d (x_tmp s) (x_npz s))
    | XTasks (id :: rest) => (XTask (task_input (x_split s) id) rest, s)
    (* extract.py:84-173; a job that fails does not stop the recipe *)
    | XTask (l :: todo) rest =>
        match fea l with
        | Some b => (XSave l b todo rest, mkx (x_split s) (puts (x_tmp s) (key l) None) (x_npz s))
        | None => (XTasks rest, s)
        end
    (* extract.py:171 *)
    | XSave l b todo rest => (XTask todo rest, mkx (x_split s) (puts (x_tmp s) (key l) (Some b)) (x_npz s))
    | XTask [] rest => (XTasks rest, s)
    | XTasks [] => (XOpen, s)
    (* archive.py:19: the file is made *)
    | XOpen => (XWrite, mkx (x_split s) (x_tmp s) (Some ([], false)))
    (* archive.py:20-24: the files are added and the archive is closed *)
    | XWrite => (XRm, mkx (x_split s) (x_tmp s) (Some (x_tmp s, true)))
    (* extract_features.sh:79 *)
    | XRm => (XDone, mkx (x_split s) [] (x_npz s))
    | XDone => (XDone, s)
    end.

  Definition xsteps (o : zopts) (lines : list str) (k : nat) (ps : xpc * xdir) : xpc * xdir :=
    Nat.iter k (xmicro o lines) ps.
  Definition xrun (o : zopts) (lines : list str) (k : nat) (s : xdir) : xpc * xdir := xsteps o lines k (xstart s, s).
  Definition xruns (lines : list str) (l : list (zopts * nat)) (s : xdir) : xdir :=
    fold_left (fun s ok => snd (xrun (fst ok) lines (snd ok) s)) l s.
  Definition xfresh : xdir := mkx [] [] None.

  (** No run is killed while the archive is written *)
  Fixpoint outside_archive (lines : list str) (l : list (zopts * nat)) (s : xdir) : Prop :=
    match l with
    | [] => True
    | ok :: l' => fst (xrun (fst ok) lines (snd ok) s) <> XWrite /\
                  outside_archive lines l' (snd (xrun (fst ok) lines (snd ok) s))
    end.
End Features.
Arguments xdir : clear implicits.
Arguments xpc : clear implicits.

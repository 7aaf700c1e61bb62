(** Model of the training loop of the recipe /repo/recipes/aud/steps/aud.sh:95-136:
    the files of its output directory, the jobs of every epoch
    (submit_parallel.sh, Jb_Model.v) and what happens when the recipe is killed
    and started again.

    - [acc m lines] is `beer hmm accumulate` with the model m and the utterances
      of a job: the content of the .pkl file, or None when the command fails (it
      writes its file last).  [upd m stats] is `beer hmm update` with the
      contents of the .pkl files it is given.  [ord] is the order in which find
      lists them.
    - The file elbo_ID.pkl is known by its number (C193: two tasks never write the
      same file), the file E.mdl by its number.
    - The tasks of an array job run one after the other, in an order chosen by
      the scheduler ([sched]).  The recipe can be killed between any two file
      operations; what is left then is the directory.
    - The optimizer state (optim_state.pth) is left out, see Rs_Model.v. *)
From Coq Require Import List Arith Bool Ascii.
From Verif Require Import Prelude Fe_Model Jb_Model.
Import ListNotations.
Local Open Scope nat_scope.

Section Recipe.
  Context {M A : Type}.
  Variables (acc : M -> list str -> option A) (upd : M -> list A -> option M).
  Variable ord : nat -> list A -> list A.

  Fixpoint getn {B} (l : list (nat * B)) (k : nat) : option B :=
    match l with [] => None | (a, b) :: l' => if a =? k then Some b else getn l' k end.
  Fixpoint putn {B} (l : list (nat * B)) (k : nat) (v : B) : list (nat * B) :=
    match l with [] => [(k, v)] | (a, b) :: l' => if a =? k then (a, v) :: l' else (a, b) :: putn l' k v end.

  Record outdir : Type := {
    models : list (nat * M);           (* E.mdl *)
    final : option M;                  (* final.mdl *)
    splits : nat -> dir;               (* epochE/split *)
    pkls : nat -> list (nat * A)       (* epochE/elbo_ID.pkl *)
  }.
  Definition set_split (s : outdir) (e : nat) (d : dir) : outdir :=
    {| models := models s; final := final s; splits := fun i => if i =? e then d else splits s i; pkls := pkls s |}.
  Definition set_pkls (s : outdir) (e : nat) (l : list (nat * A)) : outdir :=
    {| models := models s; final := final s; splits := splits s; pkls := fun i => if i =? e then l else pkls s i |}.
  Definition set_models (s : outdir) (l : list (nat * M)) : outdir :=
    {| models := l; final := final s; splits := splits s; pkls := pkls s |}.
  Definition set_final (s : outdir) (m : M) : outdir :=
    {| models := models s; final := Some m; splits := splits s; pkls := pkls s |}.

  (** What remains to be done.  [mdl] is the shell variable of the same name. *)
  Inductive pc : Type :=
  | PSplit (mdl e : nat)
  | PJobs (mdl e : nat) (rest : list nat)
  | PUpdate (mdl e : nat)
  | PCopy (mdl : nat)
  | PDone (status : bool).

  (** The options of a run *)
  Record run_opts : Type := {
    njobs : nat;
    cuts : nat -> nat;                         (* split, see Jb_Model.v *)
    sched : nat -> list nat -> list nat;       (* order of the tasks of an epoch *)
    epochs : nat
  }.

  (** aud.sh:108, the head of the loop, after the model [mdl] *)
  Definition head (o : run_opts) (mdl : nat) : pc :=
    if S mdl <=? epochs o then PSplit mdl (S mdl) else PCopy mdl.

  (** aud.sh:96-100: the last model, sort -g | tail -1 *)
  Definition start (o : run_opts) (s : outdir) : pc :=
    match final s, getn (models s) (epochs o) with
    | Some _, Some _ => PDone true
    | _, _ => match map fst (models s) with
              | [] => PDone false
              | k :: ks => head o (fold_left Nat.max ks k)
              end
    end.

  Definition micro (o : run_opts) (lines : list str) (ps : pc * outdir) : pc * outdir :=
    let (p, s) := ps in
    match p with
    (* submit_parallel.sh:22 *)
    | PSplit mdl e =>
        let d := split_sh (cuts o) (njobs o) lines (splits s e) in
        (PJobs mdl e (sched o e (tasks d)), set_split s e d)
    (* one task, jobarray.qsub:11-26; a task that fails writes nothing *)
    | PJobs mdl e (id :: rest) =>
        let s' := match getn (models s) mdl with
                  | Some m => match acc m (task_input (splits s e) id) with
                              | Some a => set_pkls s e (putn (pkls s e) id a)
                              | None => s
                              end
                  | None => s
                  end in
        (PJobs mdl e rest, s')
    (* the status of submit_parallel.sh is that of its last command, lines
       28-34, so the failures do not stop the recipe *)
    | PJobs mdl e [] => (PUpdate mdl e, s)
    (* aud.sh:125-130; the status of the pipe is that of tee *)
    | PUpdate mdl e =>
        let s' := match getn (models s) mdl with
                  | Some m => match upd m (ord e (map snd (pkls s e))) with
                              | Some m' => set_models s (putn (models s) e m')
                              | None => s
                              end
                  | None => s
                  end in
        (head o e, s')
    (* aud.sh:133 *)
    | PCopy mdl => match getn (models s) mdl with
                   | Some m => (PDone true, set_final s m)
                   | None => (PDone false, s)
                   end
    | PDone b => (PDone b, s)
    end.

  Definition steps (o : run_opts) (lines : list str) (k : nat) (ps : pc * outdir) : pc * outdir :=
    Nat.iter k (micro o lines) ps.

  (** A run killed after k operations; runs one after the other *)
  Definition run (o : run_opts) (lines : list str) (k : nat) (s : outdir) : outdir :=
    snd (steps o lines k (start o s, s)).
  Definition runs (lines : list str) (l : list (run_opts * nat)) (s : outdir) : outdir :=
    fold_left (fun s ok => run (fst ok) lines (snd ok) s) l s.

  (** The directory before the training: 0.mdl *)
  Definition fresh (m0 : M) : outdir :=
    {| models := [(0, m0)]; final := None; splits := fun _ => []; pkls := fun _ => [] |}.
End Recipe.
Arguments outdir : clear implicits.

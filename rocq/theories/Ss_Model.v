(** The training loop of the subspace recipes, recipes/aud/steps/
    subspace_aud.sh:134-207 (subspace_monophone.sh has the same loop), as a
    machine that can be killed between any two writes of a file and started
    again.

    Simplified: the write of one file is atomic; the accumulation by the jobs
    (lines 153-163) is one step, its jobs are in Ep_Model.v; the samples
    drawn by "shmm train" are a function of the epoch; the runs have the same
    options. *)
From Coq Require Import List Arith.
From Verif Require Import Ep_Model.
Import ListNotations.
Local Open Scope nat_scope.

Section SubspaceRecipe.
  Context {M G P A T V : Type}.
  (** "hmm accumulate" over the data, subspace_aud.sh:153-163 *)
  Variable acc : M -> A.
  (** "hmm update", beer/cli/subcommands/hmm/update.py:22-70: the saved state
      of the optimizer, the model and the statistics; None when it fails *)
  Variable upd : option T -> M -> A -> option (M * T).
  (** "shmm train --posteriors", beer/cli/subcommands/shmm/train.py:51-148: the
      epoch (for the samples), the number of steps, the saved state of Adam,
      the GSM, the posteriors and the phone-loop *)
  Variable train : nat -> nat -> option V -> G -> P -> M -> option (G * P * M * V).
  (** The options: epochs, gsm_epochs and gsm_smoothing_epochs *)
  Variables (n ge sm : nat).

  (** The output directory *)
  Record sdir : Type := mk {
    mdls : list (nat * M);       (* E.mdl *)
    gsms : list (nat * G);       (* gsm_E.mdl *)
    posts : list (nat * P);      (* units_posts_E.pkl *)
    stats : list (nat * A);      (* epochE/elbo_*.pkl *)
    tmp : option M;              (* tmp.mdl *)
    ost : option T;              (* optim_state.pth *)
    gost : option V;             (* gsm_optim_state.pth *)
    final : option M;            (* final.mdl *)
    gfinal : option G;           (* gsm_final.mdl *)
    pfinal : option P            (* units_posts_final.pkl *)
  }.
  Definition set_mdls s x := mk x (gsms s) (posts s) (stats s) (tmp s) (ost s) (gost s) (final s) (gfinal s) (pfinal s).
  Definition set_gsms s x := mk (mdls s) x (posts s) (stats s) (tmp s) (ost s) (gost s) (final s) (gfinal s) (pfinal s).
  Definition set_posts s x := mk (mdls s) (gsms s) x (stats s) (tmp s) (ost s) (gost s) (final s) (gfinal s) (pfinal s).
  Definition set_stats s x := mk (mdls s) (gsms s) (posts s) x (tmp s) (ost s) (gost s) (final s) (gfinal s) (pfinal s).
  Definition set_tmp s x := mk (mdls s) (gsms s) (posts s) (stats s) (Some x) (ost s) (gost s) (final s) (gfinal s) (pfinal s).
  Definition set_ost s x := mk (mdls s) (gsms s) (posts s) (stats s) (tmp s) (Some x) (gost s) (final s) (gfinal s) (pfinal s).
  Definition set_gost s x := mk (mdls s) (gsms s) (posts s) (stats s) (tmp s) (ost s) (Some x) (final s) (gfinal s) (pfinal s).
  Definition set_final s x := mk (mdls s) (gsms s) (posts s) (stats s) (tmp s) (ost s) (gost s) x (gfinal s) (pfinal s).
  Definition set_gfinal s x := mk (mdls s) (gsms s) (posts s) (stats s) (tmp s) (ost s) (gost s) (final s) x (pfinal s).
  Definition set_pfinal s x := mk (mdls s) (gsms s) (posts s) (stats s) (tmp s) (ost s) (gost s) (final s) (gfinal s) x.

  (** What remains to be done; [mdl] is the number of $mdl, $gsm and $posts *)
  Inductive pc : Type :=
  | PAcc (mdl e : nat)
  | PUpd (mdl e : nat)
  | PSaveO (mdl e : nat) (t : T)
  | PGsm (mdl e : nat)
  | PPosts (e : nat) (p : P) (m : M) (t : V)
  | PMdl (e : nat) (m : M) (t : V)
  | PGSave (e : nat) (t : V)
  | PFin1 (mdl : nat)
  | PFin2 (mdl : nat)
  | PFin3 (mdl : nat)
  | PDone (status : bool).

  (** subspace_aud.sh:150, the head of the loop after the epoch [mdl] *)
  Definition head (mdl : nat) : pc := if S mdl <=? n then PAcc mdl (S mdl) else PFin1 mdl.

  (** subspace_aud.sh:135-142: the last model, sort -g | tail -1 *)
  Definition start (s : sdir) : pc :=
    match final s with
    | Some _ => PDone true
    | None => match map fst (mdls s) with
              | [] => PDone false
              | k :: ks => head (fold_left Nat.max ks k)
              end
    end.

  (** subspace_aud.sh:170-174 *)
  Definition train_epochs (e : nat) : nat := if e =? n then sm else ge.

  Definition micro (ps : pc * sdir) : pc * sdir :=
    let (p, s) := ps in
    match p with
    (* subspace_aud.sh:153-163; the failures of the jobs do not stop the recipe *)
    | PAcc mdl e =>
        (PUpd mdl e, match getn (mdls s) mdl with
                     | Some m => set_stats s (putn (stats s) e (acc m))
                     | None => s
                     end)
    (* subspace_aud.sh:166-168, update.py:64-66; the status of the pipe is
       that of tee, so that a failure does not stop the recipe *)
    | PUpd mdl e =>
        match getn (mdls s) mdl, getn (stats s) e with
        | Some m, Some a =>
            match upd (ost s) m a with
            | Some (m', t) => (PSaveO mdl e t, set_tmp s m')
            | None => (PGsm mdl e, s)
            end
        | _, _ => (PGsm mdl e, s)
        end
    (* update.py:68-70 *)
    | PSaveO mdl e t => (PGsm mdl e, set_ost s t)
    (* subspace_aud.sh:177-194, train.py:50-133 *)
    | PGsm mdl e =>
        match getn (gsms s) mdl, getn (posts s) mdl, tmp s with
        | Some g, Some q, Some m =>
            match train e (train_epochs e) (gost s) g q m with
            | Some (g', q', m', t) => (PPosts e q' m' t, set_gsms s (putn (gsms s) e g'))
            | None => (PDone false, s)
            end
        | _, _, _ => (PDone false, s)
        end
    (* train.py:135-140 *)
    | PPosts e q m t => (PMdl e m t, set_posts s (putn (posts s) e q))
    (* train.py:142-144 *)
    | PMdl e m t => (PGSave e t, set_mdls s (putn (mdls s) e m))
    (* train.py:146-148 *)
    | PGSave e t => (head e, set_gost s t)
    (* subspace_aud.sh:202-204 *)
    | PFin1 mdl => (PFin2 mdl, match getn (mdls s) mdl with Some m => set_final s (Some m) | None => s end)
    | PFin2 mdl => (PFin3 mdl, match getn (gsms s) mdl with Some g => set_gfinal s (Some g) | None => s end)
    | PFin3 mdl => (PDone true, match getn (posts s) mdl with Some q => set_pfinal s (Some q) | None => s end)
    | PDone b => (PDone b, s)
    end.

  Definition steps (k : nat) (ps : pc * sdir) : pc * sdir := Nat.iter k micro ps.

  (** A run killed after k operations; runs one after the other *)
  Definition run (k : nat) (s : sdir) : sdir := snd (steps k (start s, s)).
  Definition runs (l : list nat) (s : sdir) : sdir := fold_left (fun s k => run k s) l s.

  (** The directory before the training, subspace_aud.sh:116-131 *)
  Definition fresh (m : M) (g : G) (q : P) : sdir :=
    mk [(0, m)] [(0, g)] [(0, q)] [] None None None None None None.
End SubspaceRecipe.
Arguments sdir : clear implicits.
Arguments pc : clear implicits.

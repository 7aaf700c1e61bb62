(** The training loop of the hierarchical subspace recipe, recipes/aud/steps/
    hsubspace_aud.sh:167-260, as a machine that can be killed between any two
    writes of a file and started again.  It differs from Ss_Model.v: a file
    .done.acc says that the statistics of an epoch are accumulated, "hshmm
    train" writes E.mdl (all the languages) and then E.mdl_LANG, and the
    statistics are removed at the end of an epoch.

    Simplified: the write of one file is atomic; the accumulation by the jobs is
    one step, which gives no file if they fail; there is one language, as in the recipe; the samples drawn by "hshmm train" and its
    options are a function of the epoch; the runs have the same options. *)
From Coq Require Import List Arith Bool.
From Verif Require Import Ep_Model.
Import ListNotations.
Local Open Scope nat_scope.

Section HierarchicalRecipe.
  Context {M G P A T V : Type}.
  (** "hmm update", beer/cli/subcommands/hmm/update.py:21-70 *)
  Variable upd : option T -> M -> A -> option (M * T).
  (** "hshmm train", beer/cli/subcommands/hshmm/train.py:62-206: as in Ss_Model.v *)
  Variable train : nat -> nat -> option V -> G -> P -> M -> option (G * P * M * V).
  (** The options: epochs, gsm_init_epochs, gsm_epochs, gsm_smoothing_epochs and cleanup *)
  Variables (n ini ge sm : nat) (cleanup : bool).

  (** The output directory *)
  Record hdir : Type := mk {
    mdls : list (nat * M);       (* E.mdl *)
    lmdls : list (nat * M);      (* E.mdl_LANG *)
    gsms : list (nat * G);       (* hgsm_E.mdl *)
    posts : list (nat * P);      (* units_posts_E.pkl *)
    stats : nat -> option A;     (* epochE/elbo_*.pkl *)
    acced : nat -> bool;         (* epochE/.done.acc *)
    tmp : option M;              (* tmp.mdl *)
    ost : option T;              (* optim_state.pth *)
    gost : option V;             (* hgsm_optim_state.pth *)
    final : option M;            (* final.mdl *)
    gfinal : option G;           (* hgsm_final.mdl *)
    pfinal : option P;           (* units_posts_final.pkl *)
    lfinal : option M            (* final_LANG.mdl *)
  }.
  Definition set_mdls s x := mk x (lmdls s) (gsms s) (posts s) (stats s) (acced s) (tmp s) (ost s) (gost s) (final s) (gfinal s) (pfinal s) (lfinal s).
  Definition set_lmdls s x := mk (mdls s) x (gsms s) (posts s) (stats s) (acced s) (tmp s) (ost s) (gost s) (final s) (gfinal s) (pfinal s) (lfinal s).
  Definition set_gsms s x := mk (mdls s) (lmdls s) x (posts s) (stats s) (acced s) (tmp s) (ost s) (gost s) (final s) (gfinal s) (pfinal s) (lfinal s).
  Definition set_posts s x := mk (mdls s) (lmdls s) (gsms s) x (stats s) (acced s) (tmp s) (ost s) (gost s) (final s) (gfinal s) (pfinal s) (lfinal s).
  Definition set_stats s x := mk (mdls s) (lmdls s) (gsms s) (posts s) x (acced s) (tmp s) (ost s) (gost s) (final s) (gfinal s) (pfinal s) (lfinal s).
  Definition set_acced s x := mk (mdls s) (lmdls s) (gsms s) (posts s) (stats s) x (tmp s) (ost s) (gost s) (final s) (gfinal s) (pfinal s) (lfinal s).
  Definition set_tmp s x := mk (mdls s) (lmdls s) (gsms s) (posts s) (stats s) (acced s) (Some x) (ost s) (gost s) (final s) (gfinal s) (pfinal s) (lfinal s).
  Definition set_ost s x := mk (mdls s) (lmdls s) (gsms s) (posts s) (stats s) (acced s) (tmp s) (Some x) (gost s) (final s) (gfinal s) (pfinal s) (lfinal s).
  Definition set_gost s x := mk (mdls s) (lmdls s) (gsms s) (posts s) (stats s) (acced s) (tmp s) (ost s) (Some x) (final s) (gfinal s) (pfinal s) (lfinal s).
  Definition set_final s x := mk (mdls s) (lmdls s) (gsms s) (posts s) (stats s) (acced s) (tmp s) (ost s) (gost s) x (gfinal s) (pfinal s) (lfinal s).
  Definition set_gfinal s x := mk (mdls s) (lmdls s) (gsms s) (posts s) (stats s) (acced s) (tmp s) (ost s) (gost s) (final s) x (pfinal s) (lfinal s).
  Definition set_pfinal s x := mk (mdls s) (lmdls s) (gsms s) (posts s) (stats s) (acced s) (tmp s) (ost s) (gost s) (final s) (gfinal s) x (lfinal s).
  Definition set_lfinal s x := mk (mdls s) (lmdls s) (gsms s) (posts s) (stats s) (acced s) (tmp s) (ost s) (gost s) (final s) (gfinal s) (pfinal s) x.
  Definition putf {B} (f : nat -> B) (e : nat) (v : B) : nat -> B := fun i => if i =? e then v else f i.

  (** What remains to be done; [mdl] is the number of $mdl, $hgsm and $posts *)
  Inductive pc : Type :=
  | PAcc (mdl e : nat)
  | PTouch (mdl e : nat)
  | PUpd (mdl e : nat)
  | PSaveO (mdl e : nat) (t : T)
  | PGsm (mdl e : nat)
  | PPosts (e : nat) (p : P) (m : M) (t : V)
  | PMdl (e : nat) (m : M) (t : V)
  | PLang (e : nat) (m : M) (t : V)
  | PGSave (e : nat) (t : V)
  | PClean (e : nat)
  | PFin1 (mdl : nat)
  | PFin2 (mdl : nat)
  | PFin3 (mdl : nat)
  | PFin4 (mdl : nat)
  | PDone (status : bool).

  (** hsubspace_aud.sh:183, the head of the loop after the epoch [mdl] *)
  Definition head (mdl : nat) : pc := if S mdl <=? n then PAcc mdl (S mdl) else PFin1 mdl.

  (** hsubspace_aud.sh:168-175: the last model *)
  Definition start (s : hdir) : pc :=
    match final s with
    | Some _ => PDone true
    | None => match map fst (mdls s) with
              | [] => PDone false
              | k :: ks => head (fold_left Nat.max ks k)
              end
    end.

  (** hsubspace_aud.sh:207-213 *)
  Definition train_epochs (e : nat) : nat := if e =? n then sm else if e =? 1 then ini else ge.

  (** [acc]: what the jobs accumulate with a model, None when they fail *)
  Definition micro (acc : M -> option A) (ps : pc * hdir) : pc * hdir :=
    let (p, s) := ps in
    match p with
    (* hsubspace_aud.sh:187-197; the failures of the jobs do not stop the recipe *)
    | PAcc mdl e =>
        if acced s e then (PUpd mdl e, s)
        else (PTouch mdl e, match getn (lmdls s) mdl with
                            | Some m => match acc m with Some a => set_stats s (putf (stats s) e (Some a)) | None => s end
                            | None => s
                            end)
    (* hsubspace_aud.sh:198 *)
    | PTouch mdl e => (PUpd mdl e, set_acced s (putf (acced s) e true))
    (* hsubspace_aud.sh:202-204, update.py:64-66; the status of the pipe is that of tee *)
    | PUpd mdl e =>
        match getn (lmdls s) mdl, stats s e with
        | Some m, Some a =>
            match upd (ost s) m a with
            | Some (m', t) => (PSaveO mdl e t, set_tmp s m')
            | None => (PGsm mdl e, s)
            end
        | _, _ => (PGsm mdl e, s)
        end
    (* update.py:68-70 *)
    | PSaveO mdl e t => (PGsm mdl e, set_ost s t)
    (* hsubspace_aud.sh:206-241, hshmm/train.py:62-190 *)
    | PGsm mdl e =>
        match getn (gsms s) mdl, getn (posts s) mdl, tmp s with
        | Some g, Some q, Some m =>
            match train e (train_epochs e) (gost s) g q m with
            | Some (g', q', m', t) => (PPosts e q' m' t, set_gsms s (putn (gsms s) e g'))
            | None => (PDone false, s)
            end
        | _, _, _ => (PDone false, s)
        end
    (* hshmm/train.py:192-194 *)
    | PPosts e q m t => (PMdl e m t, set_posts s (putn (posts s) e q))
    (* hshmm/train.py:196-199 *)
    | PMdl e m t => (PLang e m t, set_mdls s (putn (mdls s) e m))
    (* hshmm/train.py:200-202 *)
    | PLang e m t => (PGSave e t, set_lmdls s (putn (lmdls s) e m))
    (* hshmm/train.py:204-206 *)
    | PGSave e t => (PClean e, set_gost s t)
    (* hsubspace_aud.sh:244-246 *)
    | PClean e => (head e, if cleanup then set_stats s (putf (stats s) e None) else s)
    (* hsubspace_aud.sh:252-257 *)
    | PFin1 mdl => (PFin2 mdl, match getn (mdls s) mdl with Some m => set_final s (Some m) | None => s end)
    | PFin2 mdl => (PFin3 mdl, match getn (gsms s) mdl with Some g => set_gfinal s (Some g) | None => s end)
    | PFin3 mdl => (PFin4 mdl, match getn (posts s) mdl with Some q => set_pfinal s (Some q) | None => s end)
    | PFin4 mdl => (PDone true, match getn (lmdls s) mdl with Some m => set_lfinal s (Some m) | None => s end)
    | PDone b => (PDone b, s)
    end.

  Definition steps (acc : M -> option A) (k : nat) (ps : pc * hdir) : pc * hdir := Nat.iter k (micro acc) ps.

  (** A run killed after k operations; runs one after the other *)
  Definition run (acc : M -> option A) (k : nat) (s : hdir) : hdir := snd (steps acc k (start s, s)).
  Definition runs (acc : M -> option A) (l : list nat) (s : hdir) : hdir := fold_left (fun s k => run acc k s) l s.

  (** The directory before the training *)
  Definition fresh (m : M) (g : G) (q : P) : hdir :=
    mk [(0, m)] [(0, m)] [(0, g)] [(0, q)] (fun _ => None) (fun _ => false) None None None None None None None.
End HierarchicalRecipe.
Arguments hdir : clear implicits.
Arguments pc : clear implicits.

(** The kills that leave a directory from which the training goes on *)
Section Kills.
  Context {M G P A T V : Type}.
  Variable upd : option T -> M -> A -> option (M * T).
  Variable train : nat -> nat -> option V -> G -> P -> M -> option (G * P * M * V).
  Variables (n ini ge sm : nat) (cleanup : bool) (acc : M -> option A).

  Definition harmless (p : pc M P T V) : Prop :=
    match p with
    | PLang _ _ _ | PFin2 _ | PFin3 _ | PFin4 _ => False
    | PGSave e _ => e = n
    | _ => True
    end.
  Fixpoint harmless_kills (l : list nat) (s : hdir M G P A T V) : Prop :=
    match l with
    | [] => True
    | k :: l' => harmless (fst (steps upd train n ini ge sm cleanup acc k (start n s, s))) /\
                 harmless_kills l' (run upd train n ini ge sm cleanup acc k s)
    end.
End Kills.

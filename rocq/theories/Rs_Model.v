(** The training loop of a recipe (Ep_Model.v) with the file in which the
    optimizer keeps its state, optim_state.pth, and with the commands the recipes
    run: `beer hmm accumulate` and `beer hmm update -o` on an HMM
    (/repo/recipes/aud/steps/monophone.sh:112-151) and on a phone-loop
    (/repo/recipes/aud/steps/aud.sh:94-136).

    The update writes two files, the new model and then the state
    (/repo/beer/cli/subcommands/hmm/update.py:64-70); the recipe can be killed
    between the two. *)
From Coq Require Import Reals List Arith Bool Ascii.
From Verif Require Import Prelude Vec Lgamma FB_Model Edit_Model Dec_Model Opt_Model.
From Verif Require Import Set_Model Set_Spec HMM_Model Dist_Model Mat NW_Model SB_Model Sk_Model Vt_Model Vl_Model Mx_Model
  Pw_Model Dt_Model Dl_Model.
From Verif Require Import Fe_Model Jb_Model Ep_Model.
Import ListNotations.
Local Open Scope nat_scope.

Section Recipe.
  Context {M A T : Type}.
  Variables (acc : M -> list str -> option A) (upd : option T -> M -> list A -> option (M * T)).
  Variable ord : nat -> list A -> list A.

  Record sdir : Type := {
    r_out : outdir M A;
    r_opt : option T                   (* optim_state.pth *)
  }.

  Inductive spc : Type :=
  | Base (p : pc)
  | PSave (e : nat) (x : T).           (* the model E.mdl is written, not the state *)

  (** All but the update is as in Ep_Model.v *)
  Definition smicro (o : run_opts) (lines : list str) (ps : spc * sdir) : spc * sdir :=
    let (p, s) := ps in
    match p with
    (* update.py:64-66 *)
    | Base (PUpdate mdl e) =>
        match getn (models (r_out s)) mdl with
        | Some m =>
            match upd (r_opt s) m (ord e (map snd (pkls (r_out s) e))) with
            | Some (m', x) => (PSave e x, {| r_out := set_models (r_out s) (putn (models (r_out s)) e m'); r_opt := r_opt s |})
            | None => (Base (head o e), s)
            end
        | None => (Base (head o e), s)
        end
    (* update.py:68-70 *)
    | PSave e x => (Base (head o e), {| r_out := r_out s; r_opt := Some x |})
    | Base p =>
        let ps' := micro acc (fun _ _ => None) ord o lines (p, r_out s) in
        (Base (fst ps'), {| r_out := snd ps'; r_opt := r_opt s |})
    end.

  Definition ssteps (o : run_opts) (lines : list str) (k : nat) (ps : spc * sdir) : spc * sdir :=
    Nat.iter k (smicro o lines) ps.
  Definition sstart (o : run_opts) (s : sdir) : spc := Base (start o (r_out s)).
  Definition srun (o : run_opts) (lines : list str) (k : nat) (s : sdir) : sdir :=
    snd (ssteps o lines k (sstart o s, s)).
  Definition sruns (lines : list str) (l : list (run_opts * nat)) (s : sdir) : sdir :=
    fold_left (fun s ok => srun (fst ok) lines (snd ok) s) l s.
  Definition sfresh (m0 : M) : sdir := {| r_out := fresh m0; r_opt := None |}.
End Recipe.
Arguments sdir : clear implicits.
Arguments spc : clear implicits.

(** ** The commands *)

(** The position of an utterance in the data set *)
Fixpoint pos (names : list str) (u : str) : nat :=
  match names with
  | [] => 0
  | n :: t => if str_eq n u then 0 else S (pos t u)
  end.

Definition to_option {B : Type} (r : result B) : option B := match r with Ok x => Some x | Err _ => None end.

(** accumulate.py:28-66 on an HMM *)
Definition hmm_acc (enum : list nat -> list nat) (amax : nat -> (nat -> lp) -> nat) (scale : R) (ds : nat) (skel : mset)
  (utts : list utt) (names : list str) (st : state) (job : list str) : option (elbo * nat) :=
  to_option (bindr (data_of amax scale (inst (forms st) skel) utts) (fun data =>
    accumulate_main enum (params skel) (model_kl skel st) ds data (map (pos names) job))).

(** update.py:21-72 on an HMM *)
Definition hmm_upd (enum : list nat -> list nat) (skel : mset) (groups : list (list nat)) (lrate : R)
  (saved : option (R * nat)) (st : state) (accs : list (elbo * nat)) : option (state * (R * nat)) :=
  to_option (bindr (update_main enum (params skel) groups lrate saved (heap_of st) accs) (fun hs =>
    bindr (reload (params skel) (fst hs) st) (fun st' => Ok (st', snd hs)))).

(** The same on a phone-loop *)
Definition ploop_acc (enum : list nat -> list nat) (amax : nat -> (nat -> lp) -> nat) (scale : R) (ds : nat) (l : ploop)
  (skel : mset) (wid : nat) (xs : list lutt) (names : list str) (s : pwst) (job : list str) : option (elbo * nat) :=
  to_option (bindr (loop_data amax scale l (inst (forms (pw_pars s)) skel) wid (pw_weights s) (pw_trans s) xs) (fun data =>
    accumulate_main enum (params skel ++ [wid]) (mx_weights_kl (pw_weights s) + model_kl skel (pw_pars s))%R ds data
      (map (pos names) job))).

Definition ploop_upd (enum : list nat -> list nat) (sort : list R -> list nat) (l : ploop) (skel : mset) (wid : nat)
  (eg : list (list nat)) (lrate : R) (saved : option (R * nat)) (s : pwst) (accs : list (elbo * nat))
  : option (pwst * (R * nat)) :=
  to_option (bindr (update_main enum (params skel ++ [wid]) (loop_groups wid eg) lrate saved
                      (loop_heap wid (length (pl_starts l)) (pw_pars s)) accs) (fun hs =>
    bindr (reload (params skel) (fst hs) (pw_pars s)) (fun st' =>
    let uw := existsb (Nat.eqb wid) (step_group (loop_groups wid eg) saved) in
    let w' := if uw then mx_weights_update sort (fst (snd hs)) (p_stats (fst hs wid)) (pw_weights s) else pw_weights s in
    Ok ({| pw_weights := w'; pw_pars := st';
           pw_trans := if uw then pw_tune l w' (pw_trans s) else pw_trans s |}, snd hs)))).

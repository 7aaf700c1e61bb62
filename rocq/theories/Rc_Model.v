(** The updates of the languages in recipes/aud/steps/hsubspace_monophone.sh:
    232-239: one "beer hmm update" per language, all in the background, all
    with the same optim_state.pth.

    A process does four operations, beer/cli/subcommands/hmm/update.py and the
    recipe: it reads the state (update.py:32-35), writes LANG_tmp.mdl (64-66),
    writes the state (68-70), and appends its line to the list of the models
    (hsubspace_monophone.sh:237).  The schedule is any list of languages: the
    next operation of the language is done.

    Simplified: an operation is atomic; the state is the counter of the
    optimizer (beer/inference/optimizers.py:16-31), the learning rate is the
    same for all; the statistics of the language are there. *)
From Coq Require Import List Arith.
Import ListNotations.
Local Open Scope nat_scope.

Section Race.
  Context {M : Type}.
  (** The number of groups of parameters, and the update of one group of the
      model of a language with its statistics *)
  Variable ng : nat.
  Variable upd : nat -> M -> M.
  (** The models E.mdl_LANG *)
  Variable mdl : nat -> M.

  Inductive proc : Type := Ready | Loaded (c : nat) | Written (c : nat) | Saved | Ended.

  Record work : Type := mkw {
    file : option nat;             (* optim_state.pth *)
    tmps : nat -> option M;        (* LANG_tmp.mdl *)
    lines : list nat;              (* E_sphoneloop_to_lang.txt *)
    procs : nat -> proc
  }.

  Definition setf {B} (f : nat -> B) (i : nat) (v : B) : nat -> B := fun j => if j =? i then v else f j.

  (** beer/inference/optimizers.py:13: the counter of a new optimizer is 0 *)
  Definition count_of (f : option nat) : nat := match f with Some c => c | None => 0 end.

  (** The next operation of the language i; update.py:62 and optimizers.py:26-31
      for the group *)
  Definition op (s : work) (i : nat) : work :=
    match procs s i with
    | Ready => mkw (file s) (tmps s) (lines s) (setf (procs s) i (Loaded (count_of (file s))))
    | Loaded c => mkw (file s) (setf (tmps s) i (Some (upd (c mod ng) (mdl i)))) (lines s) (setf (procs s) i (Written c))
    | Written c => mkw (Some (S c)) (tmps s) (lines s) (setf (procs s) i Saved)
    | Saved => mkw (file s) (tmps s) (lines s ++ [i]) (setf (procs s) i Ended)
    | Ended => s
    end.
  Definition exec (sched : list nat) (s : work) : work := fold_left op sched s.

  (** The beginning of the updates of an epoch, hsubspace_monophone.sh:209 *)
  Definition begin (f : option nat) (t : nat -> option M) : work := mkw f t [] (fun _ => Ready).

  (** The languages one after the other *)
  Definition in_turn (langs : list nat) : list nat := flat_map (fun i => [i; i; i; i]) langs.
End Race.
Arguments work : clear implicits.

Section Epochs.
  Context {M : Type}.
  Variables (ng : nat) (upd : nat -> M -> M).
  (** What "hshmm train" makes of the updated model of a language *)
  Variable after : nat -> nat -> M -> M.
  Variable langs : list nat.

  (** The epochs of the recipe, hsubspace_monophone.sh:205-277, the languages in turn: the state
      and the models *)
  Fixpoint epochs (e : nat) (m0 : nat -> M) : option nat * (nat -> M) :=
    match e with
    | 0 => (None, m0)
    | S e' =>
        let (f, m) := epochs e' m0 in
        let s := exec ng upd m (in_turn langs) (begin f (fun _ => None)) in
        (file s, fun i => match tmps s i with Some x => after e i x | None => m i end)
    end.
End Epochs.

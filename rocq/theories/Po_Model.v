(** Model of /repo/recipes/aud/utils/posteriors.py.

    Simplifications: the parsing of the arguments and the files are left out;
    [model.graph.value] (line 24), which the graphs of the package do not have,
    is read as the graph itself. *)
From Coq Require Import Reals List Arith Bool.
From Verif Require Import Prelude Vec FB_Model Edit_Model Dec_Model Set_Model HMM_Model.
Import ListNotations.
Local Open Scope R_scope.

(** posteriors.py:23-27 with the posteriors taken out of the pair (posteriors,
    log-normaliser) that hmm.py:62 returns *)
Definition compute_posts (amax : nat -> (nat -> lp) -> nat) (m : mset) (g : cgraph)
  (order : list nat) (scale : R) (stats : mat) : result (list (nat -> num)) :=
  bindr (pc_llhs m order scale stats) (fun llhs =>
  bindr (inference amax g llhs Soft false) (fun rt => Ok (fst rt))).

(** posteriors.py:30: [main] has one parameter; line 61 calls it with none.
    Calling a python function with another number of arguments than it has
    parameters is a TypeError. *)
Definition call {A} (params args : nat) (body : result A) : result A :=
  if (params =? args)%nat then body else Err TypeError.

(** posteriors.py:44-46: [.detach()] of the pair is an AttributeError *)
Definition script_body {A} (utts : list A) : result unit :=
  match utts with [] => Ok tt | _ => Err AttributeError end.

Definition script {A} (utts : list A) : result unit := call 1 0 (script_body utts).

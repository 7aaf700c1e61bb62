(** Specification vocabulary for the mean field factorisation. *)
From Coq Require Import List Arith Bool.
From Verif Require Import Prelude MF_Model.
Import ListNotations.

(** The parameters a model is responsible for, in order. *)
Fixpoint params (m : model) : list nat :=
  match m with
  | MParams ps => ps
  | MHidden _ => []
  | MJoint ms => flat_map params ms
  | MPass m' => params m'
  | MMerge m' c => params m' ++ params c
  | MConcat ms => flat_map params ms
  end.

(** Number of groups of a model. *)
Fixpoint ngroups (m : model) : nat :=
  match m with
  | MParams _ => 1
  | MHidden _ => 0
  | MJoint _ => 1
  | MPass m' => ngroups m'
  | MMerge m' c => Nat.max (ngroups m') (ngroups c)
  | MConcat ms => list_sum (map ngroups ms)
  end.

(** Joint sets are only made of models with exactly one group. *)
Fixpoint valid (m : model) : bool :=
  match m with
  | MParams _ | MHidden _ => true
  | MJoint ms => forallb (fun x => valid x && (ngroups x =? 1)) ms
  | MPass m' => valid m'
  | MMerge m' c => valid m' && valid c
  | MConcat ms => forallb valid ms
  end.

(** [located p i m]: p belongs to the i-th group of m -- same index as in the
    sub-model; a concatenation shifts the indices by the groups before. *)
Inductive located (p : nat) : nat -> model -> Prop :=
| lo_params ps : In p ps -> located p 0 (MParams ps)
| lo_joint ms x : In x ms -> located p 0 x -> located p 0 (MJoint ms)
| lo_pass i m : located p i m -> located p i (MPass m)
| lo_left i m c : located p i m -> located p i (MMerge m c)
| lo_right i m c : located p i c -> located p i (MMerge m c)
| lo_concat i pre x post : located p i x ->
    located p (list_sum (map ngroups pre) + i) (MConcat (pre ++ x :: post)).

(** Parameters of a module tree. *)
Fixpoint node_params (n : node) : list nat :=
  match n with
  | NParam u => [u]
  | NMod _ cs => flat_map (fun c => node_params (snd c)) cs
  end.

(** What replacing should do. *)
Definition renamed (rm : nat -> option nat) (u : nat) : nat :=
  match rm u with Some v => v | None => u end.

(** Every sub-module is a Model, and no module registers the same parameter
    under two names. *)
Fixpoint plain (n : node) : Prop :=
  match n with
  | NParam _ => True
  | NMod b cs =>
      b = true /\
      NoDup (flat_map (fun c => match snd c with NParam u => [u] | _ => [] end) cs) /\
      (fix go (l : list (nat * node)) : Prop :=
         match l with [] => True | c :: t => plain (snd c) /\ go t end) cs
  end.

(** A sub-module reachable through Models only. *)
Inductive reach : node -> node -> Prop :=
| reach_self b cs : reach (NMod b cs) (NMod b cs)
| reach_child b cs name cs' n :
    In (name, NMod true cs') cs -> reach (NMod true cs') n -> reach (NMod b cs) n.

(** Shape: names and classes never change. *)
Fixpoint shape (n : node) : node :=
  match n with
  | NParam _ => NParam 0
  | NMod b cs => NMod b (map (fun c => (fst c, shape (snd c))) cs)
  end.

(** Specification vocabulary for the scripts of the TIMIT recipe. *)
From Coq Require Import Reals String List.
From Verif Require Import Prelude Graph_Model Graph_Spec Gb_Spec Tv_Model.
Import ListNotations.
Local Open Scope string_scope.
Local Open Scope R_scope.

(** Order of the names *)
Definition name_lt (a b : string) : Prop := String.compare a b = Lt.

(** [l] lists once each element of [arcs]. *)
Definition enumerates {A} (l arcs : list A) : Prop := NoDup l /\ forall x, In x l <-> In x arcs.
(** Two lines joining the same states have the same weight. *)
Definition functional (arcs : list (string * string * R)) : Prop :=
  forall a b w w', In (a, b, w) arcs -> In (a, b, w') arcs -> w = w'.
(** Total weight of the lines leaving a state *)
Definition out_total (l : list (string * string * R)) (a : string) : R :=
  sumf snd (filter (fun x => String.eqb (fst (fst x)) a) l).

(** The sequences of phones and their probabilities. *)
Section Sequences.
  Variables (phones : list string) (pw : string -> R).
  (** Any sequence: each phone and the end compete. *)
  Inductive free : list string -> R -> Prop :=
  | free_end : free [] (1 / (1 + sumf pw phones))
  | free_cons p sq w : In p phones -> free sq w -> free (p :: sq) (pw p / (1 + sumf pw phones) * w).
  (** What follows a phone when the first and the last are the silence: after
      the silence the end has probability 1/2. *)
  Variable sil : string.
  Inductive after : string -> list string -> R -> Prop :=
  | after_end : after sil [] (1 / 2)
  | after_sil p sq w : In p phones -> after p sq w -> after sil (p :: sq) (1 / 2 * (pw p / sumf pw phones * w))
  | after_other q p sq w : q <> sil -> In p phones -> after p sq w -> after q (p :: sq) (pw p / sumf pw phones * w).
End Sequences.

(** Pdf sequences and weights: a sequence of phones of a language and a
    sequence of pdfs of the HMM of each of them. *)
Definition produced (units : list (string * graph)) (spec : list string -> R -> Prop) (ls : list nat) (w : R) : Prop :=
  exists sq hs p v, spec sq p /\ Forall2 (fun n h => In (n, h) units) sq hs /\ catgen hs ls v /\ w = p * v.

(** A configuration of the units: at least an entry and an exit state, arcs
    between these states with positive weights. *)
Definition fits (n : nat) (t : list (nat * nat * R)) : Prop :=
  (2 <= n)%nat /\ positive t /\ forall a, In a t -> (fst (fst a) < n)%nat /\ (snd (fst a) < n)%nat.
(** The HMM of a unit with n states and the topology t, with pdfs from k. *)
Record unit_hmm (n : nat) (t : list (nat * nat * R)) (k : nat) (h : graph) : Prop := {
  uh_states : states h = seq 0 n;
  uh_start : g_start h = Some 0%nat;
  uh_end : g_end h = Some (n - 1)%nat;
  uh_entry : In (0%nat, None) (g_states h);
  uh_exit : In ((n - 1)%nat, None) (g_states h);
  uh_pdf : forall i, (0 < i < n - 1)%nat -> In (i, Some (k + (i - 1))%nat) (g_states h);
  uh_arcs : forall s e, (exists w, In (Arc s e w) (g_arcs h)) <-> exists w, In (s, e, w) t;
  uh_weights : NoDup (map fst t) -> forall s e w, In (Arc s e w) (g_arcs h) <->
    exists v, In (s, e, v) t /\ w = v / sumf snd (filter (fun a => Nat.eqb (fst (fst a)) s) t) }.

(** The same for a group of units *)
Definition group_fits (c : tv_group) : Prop := fits (n_state_per_unit c) (topo c).
Definition group_tot (c : tv_group) : nat := (n_units c * (n_state_per_unit c - 2))%nat.
Definition group_unit (c : tv_group) (h : graph) : Prop :=
  (exists k, unit_hmm (n_state_per_unit c) (topo c) k h) /\ usable h.
Definition block_pdfs (b : list (string * graph)) : list nat := concat (map (fun u => pdf_id_mapping (snd u)) b).

(** Specification vocabulary for the graph building scripts. *)
From Coq Require Import Reals String List Arith Bool Permutation.
From Verif Require Import Prelude Graph_Model Graph_Spec.
Import ListNotations.
Local Open Scope R_scope.

(** The identifiers used by the topology are exactly 0, ..., n - 1. *)
Definition contiguous (t : list (nat * nat * R)) (n : nat) : Prop :=
  forall s, (s < n)%nat <-> exists a, In a t /\ (fst (fst a) = s \/ snd (fst a) = s).

(** What the recipes use: at least an entry and an exit state. *)
Definition regular (t : list (nat * nat * R)) : Prop :=
  exists n, (2 <= n)%nat /\ contiguous t n.

(** At least one state between them *)
Definition has_emitting (t : list (nat * nat * R)) : Prop :=
  exists n, (3 <= n)%nat /\ contiguous t n.

(** Every group of the configuration has a unit. *)
Definition populated (conf : list (string * list (nat * nat * R))) (ul : list (string * string)) : Prop :=
  forall g, In g (map fst conf) -> exists n, In (n, g) ul.

Definition positive (t : list (nat * nat * R)) : Prop :=
  forall a, In a t -> 0 < snd a.

(** Exactly one arc leaves the first state and exactly one reaches the last
    one; neither joins them directly. *)
Definition single_entry (t : list (nat * nat * R)) (n e : nat) : Prop :=
  (0 < e < n - 1)%nat /\ (exists w, In (0%nat, e, w) t) /\
  forall a, In a t -> fst (fst a) = 0%nat -> snd (fst a) = e.
Definition single_exit (t : list (nat * nat * R)) (n x : nat) : Prop :=
  (0 < x < n - 1)%nat /\ (exists w, In (x, (n - 1)%nat, w) t) /\
  forall a, In a t -> snd (fst a) = (n - 1)%nat -> fst (fst a) = x.

(** Concatenation of sequences generated by graphs; the weights multiply. *)
Inductive catgen : list graph -> list nat -> R -> Prop :=
| cat_nil : catgen [] [] 1
| cat_cons h hs l w ls v : generates h l w -> catgen hs ls v ->
    catgen (h :: hs) (l ++ ls) (w * v).

(** Label sequences accepted, whatever the weight. *)
Definition accepts (g : graph) (ls : list nat) : Prop := exists w, generates g ls w.
Definition cat_accepts (hs : list graph) (ls : list nat) : Prop :=
  exists lss, Forall2 accepts hs lss /\ ls = concat lss.

(** A graph which can replace a state. *)
Definition usable (h : graph) : Prop :=
  wf h /\ (exists s, g_start h = Some s /\ In s (states h)) /\
  (exists e, g_end h = Some e /\ In e (states h)).

(** The end state has no outgoing arc and every other state with an outgoing
    arc has weights summing to one. *)
Definition proper_unit (h : graph) : Prop :=
  normalised h /\ forall a, In a (g_arcs h) -> g_end h <> Some (a_start a).

(** The sequences of units of a phone loop: anything, or what starts and ends
    with a unit of the group. *)
Definition loop_seq (group : option string) (units : list (string * string))
  (seq : list string) : Prop :=
  Forall (fun u => In u (map fst units)) seq /\
  match group with
  | None => True
  | Some gr => exists a b, hd_error seq = Some a /\ List.last seq a = b /\
                 In (a, gr) units /\ In (b, gr) units
  end.

(** Specification vocabulary for graphs: well-formedness, reachability through
    non-emitting states, weighted labelled walks, substitution. *)
From Coq Require Import Reals List Arith Bool.
From Verif Require Import Prelude Graph_Model.
Import ListNotations.
Local Open Scope R_scope.

Definition key (a : arc) : nat * nat := (a_start a, a_end a).

(** What every graph built through the API satisfies. *)
Record wf (g : graph) : Prop := {
  wf_nodup : NoDup (states g);
  wf_fresh : forall s, In s (states g) -> (s < g_count g)%nat;
  wf_arcs : forall a, In a (g_arcs g) ->
              In (a_start a) (states g) /\ In (a_end a) (states g);
  wf_keys : NoDup (map key (g_arcs g))
}.

(** Successors in the chosen direction. *)
Definition step (fwd : bool) (g : graph) (x y : nat) : Prop :=
  exists a, In a (g_arcs g) /\
    (if fwd then a_start a = x /\ a_end a = y else a_end a = x /\ a_start a = y).

Definition non_emitting (g : graph) (s : nat) : Prop := In (s, None) (g_states g).
Definition is_emitting (g : graph) (s : nat) : Prop :=
  exists p, In (s, Some p) (g_states g).

(** [eps_reach s x]: x is s, or is reached from s through non-emitting states
    only (x included). *)
Inductive eps_reach (fwd : bool) (g : graph) (s : nat) : nat -> Prop :=
| er_here : eps_reach fwd g s s
| er_step x y : eps_reach fwd g s x -> step fwd g x y -> non_emitting g y ->
                eps_reach fwd g s y.

(** Emitting states reached by a non-empty path with a non-emitting interior. *)
Definition next_emitting (fwd : bool) (g : graph) (s t : nat) : Prop :=
  exists x, eps_reach fwd g s x /\ step fwd g x t /\ is_emitting g t.

(** ** Walks

    [walk g a ls w b]: a walk from a to b; [ls] are the pdf ids of the emitting
    states visited after a (b included), [w] the product of the weights. *)
Definition label (o : option nat) : list nat :=
  match o with Some p => [p] | None => [] end.

Inductive walk (g : graph) : nat -> list nat -> R -> nat -> Prop :=
| walk_nil a : walk g a [] 1 a
| walk_cons a c o ls w v b :
    In (Arc a c v) (g_arcs g) -> In (c, o) (g_states g) ->
    walk g c ls w b -> walk g a (label o ++ ls) (v * w) b.

(** Label sequences and weights generated by a whole graph, from its start to
    its end state (both included). *)
Definition generates (h : graph) (ls : list nat) (w : R) : Prop :=
  exists s e o ls', g_start h = Some s /\ g_end h = Some e /\
    In (s, o) (g_states h) /\ walk h s ls' w e /\ ls = label o ++ ls'.

(** Walks of [g] where the visits to [x] are left as marks. *)
Inductive item := Lbl (p : nat) | Mark.
Definition labels (o : option nat) : list item :=
  match o with Some p => [Lbl p] | None => [] end.

Inductive mwalk (g : graph) (x : nat) : nat -> list item -> R -> nat -> Prop :=
| mwalk_nil a : mwalk g x a [] 1 a
| mwalk_cons a c o ms w v b :
    In (Arc a c v) (g_arcs g) -> In (c, o) (g_states g) -> c <> x ->
    mwalk g x c ms w b -> mwalk g x a (labels o ++ ms) (v * w) b
| mwalk_mark a ms w v b :
    In (Arc a x v) (g_arcs g) ->
    mwalk g x x ms w b -> mwalk g x a (Mark :: ms) (v * w) b.

(** Replace each mark by a sequence generated by [h]. *)
Inductive subst (h : graph) : list item -> list nat -> R -> Prop :=
| subst_nil : subst h [] [] 1
| subst_lbl p ms ls w : subst h ms ls w -> subst h (Lbl p :: ms) (p :: ls) w
| subst_mark ms ls w ls' w' : generates h ls' w' -> subst h ms ls w ->
    subst h (Mark :: ms) (ls' ++ ls) (w' * w).

(** ** Total weight of the paths from i to j through non-emitting states, with
    at most d arcs. *)
Definition is_eps (g : graph) (s : nat) : bool :=
  existsb (fun x => Nat.eqb (fst x) s && match snd x with None => true | _ => false end)
          (g_states g).

Fixpoint eps_weight (d : nat) (g : graph) (i j : nat) : R :=
  match d with
  | O => 0
  | S d' =>
    sumf (fun a => if Nat.eqb (a_start a) i then
                     (if Nat.eqb (a_end a) j then a_weight a else 0) +
                     (if is_eps g (a_end a) then a_weight a * eps_weight d' g (a_end a) j
                      else 0)
                   else 0) (g_arcs g)
  end.

(** The non-emitting part has no cycle: some ranking decreases along its arcs. *)
Definition eps_acyclic (g : graph) : Prop :=
  exists rank : nat -> nat, forall a, In a (g_arcs g) ->
    non_emitting g (a_start a) -> non_emitting g (a_end a) ->
    (rank (a_end a) < rank (a_start a))%nat.

(** No arc between two non-emitting states. *)
Definition no_eps_eps (g : graph) : Prop :=
  forall a, In a (g_arcs g) -> non_emitting g (a_start a) -> is_emitting g (a_end a).

(** Outgoing weights of every registered state with outgoing arcs sum to one. *)
Definition normalised (g : graph) : Prop :=
  forall s, In s (states g) ->
    (forall a, In a (g_arcs g) -> a_start a <> s) \/
    sumf (fun a => if Nat.eqb (a_start a) s then a_weight a else 0) (g_arcs g) = 1.

Definition nonneg_weights (g : graph) : Prop :=
  forall a, In a (g_arcs g) -> 0 <= a_weight a.

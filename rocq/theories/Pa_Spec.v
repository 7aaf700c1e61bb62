(** Specification vocabulary for alignment graphs and forced alignments. *)
From Coq Require Import Reals String List Arith Bool.
From Verif Require Import Prelude FB_Model FB_Spec Graph_Model Graph_Spec Gb_Spec.
Import ListNotations.
Local Open Scope R_scope.

(** The label sequences read along the state paths of non-zero probability of an
    inference graph. *)
Definition cg_accepts (g : cgraph) (pdfs : list nat) (ls : list nat) : Prop :=
  exists p, In p (paths (cg_n g) (length ls)) /\
    path_score g (map (fun _ _ => Fin 0) ls) p <> NInf /\
    ls = map (fun i => nth i pdfs 0%nat) p.

Definition all_positive (g : graph) : Prop := forall a, In a (g_arcs g) -> 0 < a_weight a.

(** The arcs never go back to a non-emitting state, nor from one. *)
Definition ranked (g : graph) : Prop :=
  exists rank : nat -> nat, forall a, In a (g_arcs g) ->
    (rank (a_start a) <= rank (a_end a))%nat /\
    (non_emitting g (a_start a) \/ non_emitting g (a_end a) ->
     (rank (a_start a) < rank (a_end a))%nat).

(** A state with a self-loop can be left. *)
Definition exits (g : graph) : Prop :=
  forall a, In a (g_arcs g) -> a_start a = a_end a ->
    exists b, In b (g_arcs g) /\ a_start b = a_start a /\ a_end b <> a_start a.

(** Left-to-right topologies over 0, ..., n - 1: nothing enters the first state,
    nothing leaves the last one, a self-loop can be left. *)
Definition one_way (t : list (nat * nat * R)) (n : nat) : Prop :=
  (forall a, In a t -> snd (fst a) <> 0%nat) /\
  (forall a, In a t -> fst (fst a) <> (n - 1)%nat) /\
  (forall a, In a t -> fst (fst a) = snd (fst a) ->
     exists b, In b t /\ fst (fst b) = fst (fst a) /\ snd (fst b) <> fst (fst a)).

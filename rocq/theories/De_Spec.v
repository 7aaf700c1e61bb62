(** What decoding with a phone-loop should return. *)
From Coq Require Import Reals String List Arith Bool.
From Verif Require Import Prelude FB_Model FB_Spec Graph_Model Gb_Spec Vl_Model.
Import ListNotations.
Local Open Scope R_scope.

(** The state a unit begins with is entered at the beginning of the unit only. *)
Definition entered_once (t : list (nat * nat * R)) : Prop :=
  forall e w a, In (0%nat, e, w) t -> In a t -> snd (fst a) = e -> fst (fst a) = 0%nat \/ fst (fst a) = e.

(** The states [path] go through the units [sq], with the states [lss] in each of
    them. *)
Definition reads (units : list (string * graph)) (sq : list string) (lss : list (list nat)) (path : list nat) : Prop :=
  exists hs, Forall2 (fun n h => In (n, h) units) sq hs /\ Forall2 Gb_Spec.accepts hs lss /\ path = concat lss.

(** The unit of each frame *)
Definition per_frame_units (sq : list string) (lss : list (list nat)) : list string :=
  concat (map (fun x : string * list nat => repeat (fst x) (length (snd x))) (combine sq lss)).

(** The transitions are those of the decoding graph, but between the units, where
    they are not zero. *)
Definition loop_trans (l : ploop) (tr : nat -> nat -> lp) : Prop :=
  (forall i j, ~ (In i (pl_ends l) /\ In j (pl_starts l)) -> tr i j = cg_trans (pl_graph l) i j) /\
  (forall i j, In i (pl_ends l) -> In j (pl_starts l) -> tr i j <> NInf).

(** No path is more likely. *)
Definition most_likely (g : cgraph) (rows : list row) (path : list nat) : Prop :=
  In path (paths (cg_n g) (length rows)) /\
  forall q, In q (paths (cg_n g) (length rows)) -> lp_le (path_score g rows q) (path_score g rows path).

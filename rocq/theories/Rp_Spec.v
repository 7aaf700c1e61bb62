(** When the training of a phone-loop can start: conditions on what the user
    writes. *)
From Coq Require Import Reals String List Arith Bool.
From Verif Require Import Prelude Vec FB_Model FB_Spec Graph_Model Graph_Spec Gb_Model Gb_Spec Pa_Model Pa_Spec.
From Verif Require Import Set_Model Set_Spec HMM_Model Dist_Model Mat NW_Model NW_Spec Vt_Model Vt_Spec Vl_Model.
Import ListNotations.
Local Open Scope R_scope.

(** A left-to-right unit that begins and ends with an emitting state, not the
    same one *)
Definition left_to_right (t : list (nat * nat * R)) : Prop :=
  positive t /\ exists n e x, contiguous t n /\ one_way t n /\ single_entry t n e /\ single_exit t n x /\ e <> x.

Definition config_ok (conf : list (string * list (nat * nat * R))) (lines : list (list string))
  (ul : list (string * string)) (group : option string) : Prop :=
  (forall g t, In (g, t) conf -> left_to_right t) /\
  lines = map (fun u => [fst u; snd u]) ul /\ ul <> [] /\ populated conf ul /\ NoDup (map fst ul) /\
  (forall u, In u ul -> In (snd u) (map fst conf)) /\
  (forall u, In u (map fst ul) -> u <> START_SYM /\ u <> END_SYM /\ u <> PIVOT_SYM) /\
  group <> Some ""%string.

(** The sequences of states a sequence of units goes through, and those of the
    sequences of units the loop allows *)
Definition said (units : list (string * graph)) (sq : list string) (ls : list nat) : Prop :=
  exists hs, Forall2 (fun n h => In (n, h) units) sq hs /\ cat_accepts hs ls.
Definition sayable (group : option string) (ul : list (string * string)) (units : list (string * graph))
  (ls : list nat) : Prop := exists sq, loop_seq group ul sq /\ said units sq ls.

(** The state a unit begins with, or ends with *)
Definition begins (h : graph) (p : nat) : Prop :=
  exists b e, g_start h = Some b /\ step true h b e /\ In (e, Some p) (g_states h).
Definition finishes (h : graph) (p : nat) : Prop :=
  exists b e, g_end h = Some b /\ step false h b e /\ In (e, Some p) (g_states h).

(** The choices of --weights-prior *)
Definition unigram_priors : list (option string) :=
  [None; Some "dirichlet"; Some "dirichlet_process"; Some "gamma_dirichlet_process"]%string.
Definition bigram_priors : list (option string) := [Some "hierarchical_dirichlet_process"; Some "dirichlet2"]%string.

(** A path through the states of a topology; every inner state is on one *)
Fixpoint follows (t : list (nat * nat * R)) (p : list nat) : Prop :=
  match p with
  | a :: (b :: _) as r => (exists w, In (a, b, w) t) /\ follows t r
  | _ => True
  end.
Definition no_dead_end (t : list (nat * nat * R)) : Prop :=
  forall n, contiguous t n -> forall i, (0 < i < n - 1)%nat -> exists mid,
    Forall (fun i => (0 < i < n - 1)%nat) mid /\ In i mid /\ follows t (0%nat :: mid ++ [(n - 1)%nat]).

(** The lists of units of the recipes: each unit is declared as speech or
    non-speech, there are units of both kinds, and the loop begins with any unit
    or with a non-speech unit. *)
Definition aud_units (ul : list (string * string)) (group : option string) : Prop :=
  NoDup (map fst ul) /\ (forall u, In u (map fst ul) -> u <> START_SYM /\ u <> END_SYM /\ u <> PIVOT_SYM) /\
  (forall u, In u ul -> snd u = "non-speech-unit" \/ snd u = "speech-unit")%string /\
  (exists a, In (a, "non-speech-unit"%string) ul) /\ (exists a, In (a, "speech-unit"%string) ul) /\
  (group = None \/ group = Some "non-speech-unit"%string).

(** Five emitting states for a non-speech unit, three for a speech unit *)
Definition aud_states (u : string * string) : nat := if String.eqb (snd u) "non-speech-unit" then 5%nat else 3%nat.

(** An utterance: some frames, as many as some sequence of units can produce.
    With an alignment graph it has to be a sequence of the transcription. *)
Definition spoken (k : kind) (D : nat) (group : option string) (ul : list (string * string))
  (units : list (string * graph)) (x : lutt) : Prop :=
  exists xs, lu_stats x = map (suff k) xs /\ Forall (frame_ok k D) xs /\ xs <> [] /\
    match lu_ali x with
    | None => exists ls, sayable group ul units ls /\ length ls = length xs
    | Some (g, order) => exists sq c ls, create_graph_from_seq sq units = Ok c /\
        g = to_cgraph c /\ order = c_map c /\ said units sq ls /\ length ls = length xs
    end.

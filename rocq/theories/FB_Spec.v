(** Specification of HMM inference: explicit sums and maxima over all the
    state paths.  Independent of the dynamic programs of FB_Model. *)
From Coq Require Import Reals List Arith Bool.
From Verif Require Import Prelude FB_Model.
Import ListNotations.
Local Open Scope R_scope.

(** All state paths of a given length over [n] states. *)
Fixpoint paths (n len : nat) : list (list nat) :=
  match len with
  | O => [[]]
  | S k => flat_map (fun i => map (cons i) (paths n k)) (seq 0 n)
  end.

(** Probability of the continuation [p] from state [s] for the remaining
    frames [ls], including the final probability. *)
Fixpoint tail_prob (g : cgraph) (s : nat) (ls : list row) (p : list nat) : R :=
  match ls, p with
  | [], [] => ex (cg_final g s)
  | l :: ls', j :: p' => ex (cg_trans g s j) * ex (l j) * tail_prob g j ls' p'
  | _, _ => 0
  end.

(** Joint probability of a state path and the observations. *)
Definition path_prob (g : cgraph) (ls : list row) (p : list nat) : R :=
  match ls, p with
  | l :: ls', j :: p' => ex (cg_init g j) * ex (l j) * tail_prob g j ls' p'
  | _, _ => 0
  end.

(** Evidence: sum over all paths. *)
Definition evidence (g : cgraph) (ls : list row) : R :=
  sumf (path_prob g ls) (paths (cg_n g) (length ls)).

(** Does the path visit state [j] at time [t]? *)
Definition visits (t j : nat) (p : list nat) : bool :=
  match nth_error p t with Some i => Nat.eqb i j | None => false end.

(** Total probability of the paths visiting [j] at [t]. *)
Definition visit_mass (g : cgraph) (ls : list row) (t j : nat) : R :=
  sumf (path_prob g ls) (filter (visits t j) (paths (cg_n g) (length ls))).

(** Total probability of the paths visiting [i] at [t] and [j] at [t+1]. *)
Definition pair_mass (g : cgraph) (ls : list row) (t i j : nat) : R :=
  sumf (path_prob g ls)
    (filter (fun p => visits t i p && visits (S t) j p)
            (paths (cg_n g) (length ls))).

(** Log-domain score of a path (for Viterbi). *)
Fixpoint tail_score (g : cgraph) (s : nat) (ls : list row) (p : list nat) : lp :=
  match ls, p with
  | [], [] => cg_final g s
  | l :: ls', j :: p' =>
    ladd (ladd (cg_trans g s j) (l j)) (tail_score g j ls' p')
  | _, _ => NInf
  end.

Definition path_score (g : cgraph) (ls : list row) (p : list nat) : lp :=
  match ls, p with
  | l :: ls', j :: p' => ladd (ladd (cg_init g j) (l j)) (tail_score g j ls' p')
  | _, _ => NInf
  end.

(** What any arg-max implementation guarantees. *)
Definition is_argmax (amax : nat -> (nat -> lp) -> nat) : Prop :=
  forall n f, (0 < n)%nat ->
    (amax n f < n)%nat /\ forall i, (i < n)%nat -> lp_le (f i) (f (amax n f)).

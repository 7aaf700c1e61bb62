(** Specification for mixtures and HMMs: expectations over all the state
    paths of an utterance. *)
From Coq Require Import Reals List Arith Bool.
From Verif Require Import Prelude Vec FB_Model FB_Spec Set_Model Set_Spec.
Import ListNotations.
Local Open Scope R_scope.

(** Expectation of f under the posterior distribution of the state path. *)
Definition expect (g : cgraph) (ls : list row) (f : list nat -> R) : R :=
  sumf (fun p => path_prob g ls p / evidence g ls * f p) (paths (cg_n g) (length ls)).

(** Probability of a path before seeing the data. *)
Definition prior_prob (g : cgraph) (T : nat) (p : list nat) : R :=
  path_prob g (repeat (fun _ => Fin 0) T) p.

(** Graphs whose weights are (sub-)probabilities. *)
Definition substochastic (g : cgraph) : Prop :=
  sumf (fun i => ex (cg_init g i)) (seq 0 (cg_n g)) <= 1 /\
  (forall i, (i < cg_n g)%nat -> sumf (fun j => ex (cg_trans g i j)) (seq 0 (cg_n g)) <= 1) /\
  (forall i, (i < cg_n g)%nat -> ex (cg_final g i) <= 1).

(** Number of times a path enters the state s from one of the end states, plus
    one if it begins there. *)
Definition phone_starts (ends : list nat) (s : nat) (p : list nat) : R :=
  (if Nat.eqb (nth 0 p 0%nat) s then 1 else 0) +
  sumf (fun t => if existsb (Nat.eqb (nth t p 0%nat)) ends && Nat.eqb (nth (S t) p 0%nat) s
                 then 1 else 0) (seq 0 (pred (length p))).

(** Number of times a path goes from state e directly to state s. *)
Definition bigram_count (e s : nat) (p : list nat) : R :=
  sumf (fun t => if Nat.eqb (nth t p 0%nat) e && Nat.eqb (nth (S t) p 0%nat) s then 1 else 0)
    (seq 0 (pred (length p))).

(** Statistics of a labelled utterance: frame t is seen by the emission of
    the state p_t with responsibility one. *)
Definition path_stats (q : nat * nat) (i : nat) (es : list em) (stats : mat) (p : list nat) : R :=
  sumf (fun t => em_acc q (nth t stats []) i (nth (nth t p 0%nat) es e0) 1) (seq 0 (length stats)).

(** Scaled log-likelihoods of the frames, one function of the state per frame. *)
Definition frames (scale : R) (es : list em) (stats : mat) : list row :=
  map (fun x => fun j => Fin (scale * em_llh x (nth j es e0))) stats.

(** Log-likelihood of the frames along a path. *)
Definition path_loglik (scale : R) (es : list em) (stats : mat) (p : list nat) : R :=
  sumf (fun t => scale * em_llh (nth t stats []) (nth (nth t p 0%nat) es e0)) (seq 0 (length stats)).

(** Posterior probability of a path, and divergence from the prior over paths. *)
Definition path_post (g : cgraph) (ls : list row) (p : list nat) : R :=
  path_prob g ls p / evidence g ls.
Definition path_kl (g : cgraph) (ls : list row) : R :=
  sumf (fun p => path_post g ls p * (ln (path_post g ls p) - ln (prior_prob g (length ls) p)))
    (paths (cg_n g) (length ls)).

(** A distribution over n outcomes. *)
Definition is_dist (r : list R) : Prop := (forall x, In x r -> 0 <= x) /\ rsum r = 1.

(** Sets without mixtures, all the leaves having the same constant. *)
Fixpoint linear_const (c : R) (m : mset) : Prop :=
  match m with
  | Leaf _ _ _ c' => c' = c
  | Joint l => (fix lcs l := match l with [] => True | m :: t => linear_const c m /\ lcs t end) l
  | Rep m _ => linear_const c m
  | Mix _ _ _ => False
  end.

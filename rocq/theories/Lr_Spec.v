(** Specification vocabulary for the Bayesian linear regression. *)
From Coq Require Import Reals List Arith.
From Verif Require Import Prelude.
Import ListNotations.
Local Open Scope R_scope.

(** Distributions with finitely many values. *)
Definition finite_dist {A : Type} (l : list (R * A)) : Prop :=
  (forall p, In p l -> 0 <= fst p) /\ sumf fst l = 1.
Definition Ex {A : Type} (l : list (R * A)) (f : A -> R) : R := sumf (fun p => fst p * f (snd p)) l.

(** Weights are given by their entries: regressor, dimension. *)
Definition predicted (r : nat) (phi : list R) (w : nat -> nat -> R) (j : nat) : R :=
  sumf (fun i => nth i phi 0 * w i j) (seq 0 r).

(** Log-density of x under independent normal distributions of mean
    W^T phi and variance 1 / lambda. *)
Definition log_density (r d : nat) (x phi : list R) (w : nat -> nat -> R) (lam : R) : R :=
  sumf (fun j => ln (sqrt (lam / (2 * PI)) * exp (- (lam / 2) * (nth j x 0 - predicted r phi w j) ^ 2))) (seq 0 d).

(** Squared error. *)
Definition sq_error (r d : nat) (x phi : list R) (w : nat -> nat -> R) : R :=
  sumf (fun j => (nth j x 0 - predicted r phi w j) ^ 2) (seq 0 d).

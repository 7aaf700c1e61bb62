(** Evidence of a sequence of observations as the product of one-step-ahead
    predictive probabilities: textbook definitions, none of the code's. *)
From Coq Require Import Reals List Arith.
From Verif Require Import Prelude Lgamma.
Import ListNotations.
Local Open Scope R_scope.

(** Pólya's urn: a ball is drawn with probability proportional to the content
    of its colour, and put back with one more of the same colour. *)
Definition urn : Type := nat -> R.
Definition urn_total (K : nat) (u : urn) : R := sumf u (seq 0 K).
Definition urn_add (k : nat) (u : urn) : urn := fun j => if Nat.eqb j k then u j + 1 else u j.

Fixpoint urn_prob (K : nat) (u : urn) (draws : list nat) : R :=
  match draws with
  | [] => 1
  | k :: r => u k / urn_total K u * urn_prob K (urn_add k u) r
  end.

(** Density at squared distance [r2] of Student's t distribution in [D]
    dimensions, [nu] degrees of freedom, squared scale [s2] in every
    direction. *)
Definition student_pdf (D : nat) (nu s2 r2 : R) : R :=
  exp (lgamma ((nu + INR D) / 2)) / exp (lgamma (nu / 2))
  * Rpower (nu * PI * s2) (- (INR D / 2))
  * Rpower (1 + r2 / (nu * s2)) (- ((nu + INR D) / 2)).

(** What is known of a Gaussian after some observations: the mean is [centre]
    (worth [weight] observations), the precision has a Gamma distribution. *)
Record belief : Type :=
  { centre : nat -> R; weight : R; shp : R; rte : R }.

Definition dist2 (D : nat) (x c : nat -> R) : R := sumf (fun i => (x i - c i) ^ 2) (seq 0 D).

(** Predictive density of the next observation. *)
Definition predictive (D : nat) (b : belief) (x : nat -> R) : R :=
  student_pdf D (2 * shp b) (rte b / shp b * ((weight b + 1) / weight b)) (dist2 D x (centre b)).

(** Belief after one more observation. *)
Definition learn (D : nat) (b : belief) (x : nat -> R) : belief :=
  {| centre := fun i => centre b i + (x i - centre b i) / (weight b + 1);
     weight := weight b + 1;
     shp := shp b + INR D / 2;
     rte := rte b + weight b / (weight b + 1) * dist2 D x (centre b) / 2 |}.

Fixpoint evidence (D : nat) (b : belief) (xs : list (nat -> R)) : R :=
  match xs with
  | [] => 1
  | x :: r => predictive D b x * evidence D (learn D b x) r
  end.

(** The vector with a one at position [k]. *)
Definition unit_row (K k : nat) : list R := map (fun j => if Nat.eqb j k then 1 else 0) (seq 0 K).

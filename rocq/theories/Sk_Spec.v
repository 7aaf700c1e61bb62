(** What the evidence bound of a stick-breaking model is, from the densities of
    the Beta and Gamma distributions. *)
From Coq Require Import Reals List Arith.
From Verif Require Import Prelude Lgamma SB_Spec.
Import ListNotations.
Local Open Scope R_scope.

(** Logarithm of the Beta function *)
Definition log_beta (a b : R) : R := lgamma a + lgamma b - lgamma (a + b).

(** E[ln v] and E[ln (1 - v)] of v ~ Beta(a, b) *)
Definition e_ln_v (ab : R * R) : R := digamma (fst ab) - digamma (fst ab + snd ab).
Definition e_ln_rest (ab : R * R) : R := digamma (snd ab) - digamma (fst ab + snd ab).

(** E_q[ln Beta(v; a, b)] for v ~ q *)
Definition beta_cross (q p : R * R) : R :=
  (fst p - 1) * e_ln_v q + (snd p - 1) * e_ln_rest q - log_beta (fst p) (snd p).

(** The bound of a categorical whose weights are broken off a stick in the
    order [ord], for independent Beta factors: expected log-likelihood of the
    counts, expected log-prior and entropy. *)
Definition stick_bound (prior : list (R * R)) (ord : list nat) (post : list (R * R)) (counts : list R) : R :=
  sumf (fun i => let k := nth i ord 0%nat in let q := nth k post (0, 0) in
     nth k counts 0 * (e_ln_v q + sumf (fun j => e_ln_rest (nth j post (0, 0))) (firstn i ord)))
   (seq 0 (length ord))
  + sumf (fun k => beta_cross (nth k post (0, 0)) (nth k prior (0, 0)) - beta_cross (nth k post (0, 0)) (nth k post (0, 0)))
   (seq 0 (length post)).

(** The same when the sticks are Beta(1, g) with g ~ Gamma(a0, b0) (shape,
    rate), the posterior of g being Gamma(a, b). *)
Definition gamma_cross (a b a0 b0 : R) : R :=
  a0 * ln b0 - lgamma a0 + (a0 - 1) * (digamma a - ln b) - b0 * (a / b).

Definition joint_bound (a0 b0 : R) (ord : list nat) (post : list (R * R)) (a b : R) (counts : list R) : R :=
  sumf (fun i => let k := nth i ord 0%nat in let q := nth k post (0, 0) in
     nth k counts 0 * (e_ln_v q + sumf (fun j => e_ln_rest (nth j post (0, 0))) (firstn i ord)))
   (seq 0 (length ord))
  (* E[ln Beta(v; 1, g)] = E[ln g] + (E[g] - 1) E[ln (1 - v)] *)
  + sumf (fun q => (digamma a - ln b) + (a / b - 1) * e_ln_rest q - beta_cross q q) post
  + (gamma_cross a b a0 b0 - gamma_cross a b a b).

(** All sticks have the same prior *)
Definition same_prior (p : R * R) (n : nat) (prior : list (R * R)) : Prop := prior = repeat p n.

(** The objectives reported for the stick-breaking categorical models
    (beer/models/categorical.py, beer/models/basemodel.py). *)
From Coq Require Import Reals List Arith Bool.
From Verif Require Import Prelude Vec Lgamma Dist_Model SB_Model.
Import ListNotations.
Local Open Scope R_scope.

(** basemodel.py:64-77, with the parameters of categorical.py:155-156
    (mean_field_factorization): one KL divergence per stick.  The class with a
    hyper-prior inherits mean_field_factorization, so that its concentration
    is not one of the parameters summed over. *)
Definition sb_kl (post prior : list stick) : R :=
  rsum (map2 (fun q p => dir_kl [fst q; snd q] [fst p; snd p]) post prior).

(** objectives.py:177-184 on one batch holding all the data: [counts] is the sum of
    the one-hot rows *)
Definition sb_objective (prior : list stick) (ord : list nat) (post : list stick) (counts : list R) : R :=
  sb_ellh ord post counts - sb_kl post prior.

(** One training step of the model with a hyper-prior: the sticks
    (parameters.py:134-141 with the callback of categorical.py:109-118), then
    the callback of categorical.py:201-206. *)
Record hyper : Type := { h_ord : list nat; h_sticks : list stick; h_prior : list stick; h_gamma : gamma_par }.

Definition hyper_update (sort : list R -> list nat) (lrate : R) (gprior : gamma_par) (h : hyper)
  (counts : list R) : hyper :=
  let (ord, c) := sb_update sort lrate (h_prior h) (h_sticks h) counts in
  let (g, prior) := on_stickbreaking_update ord c gprior (h_gamma h) (h_prior h) in
  {| h_ord := ord; h_sticks := c; h_prior := prior; h_gamma := g |}.

(** What is reported for it *)
Definition hyper_objective (h : hyper) (counts : list R) : R :=
  sb_objective (h_prior h) (h_ord h) (h_sticks h) counts.

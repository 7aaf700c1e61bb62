(** The objective of a model with a single conjugate parameter (a Categorical,
    a Normal with diagonal or isotropic covariance) and one update of it. *)
From Coq Require Import Reals List Arith.
From Verif Require Import Prelude Vec Lgamma Dist_Model.
Import ListNotations.
Local Open Scope R_scope.

(** ** Categorical *)

(** objectives.py:177-190 with the whole data set in one batch (scale 1):
    models/categorical.py:64-76 for the expected log-likelihoods,
    models/basemodel.py for the divergence of the only parameter. *)
Definition cat_objective (prior post : list R) (rows : list (list R)) : R :=
  rsum (map (fun x => cat_llh (dir_ess post) (cat_suff_stats x)) rows) - dir_kl post prior.

(** models/categorical.py:78-79, then parameters.py:134-141 *)
Definition cat_train (lrate : R) (prior post : list R) (rows : list (list R)) : list R :=
  std_update dir_nat dir_from_nat lrate prior post
    (colsum (length prior) (map cat_suff_stats rows)).

(** ** Normal with diagonal covariance *)

(** models/normal.py:133-141 and objectives.py:177-190 *)
Definition diag_objective (prior post : ng_par) (rows : list (list R)) : R :=
  rsum (map (fun x => nd_llh (length (ng_mean post)) (ng_ess post) (nd_suff_stats x)) rows)
  - ng_kl post prior.

(** models/normal.py:143-144, then parameters.py:134-141 *)
Definition diag_train (lrate : R) (prior post : ng_par) (rows : list (list R)) : ng_par :=
  std_update ng_nat ng_from_nat lrate prior post
    (colsum (2 * length (ng_mean prior) + 2) (map nd_suff_stats rows)).

(** ** Normal with isotropic covariance *)
Definition iso_objective (prior post : ing_par) (rows : list (list R)) : R :=
  rsum (map (fun x => in_llh (length (ig_mean post)) (ig_ess post) (in_suff_stats x)) rows)
  - ig_kl post prior.

Definition iso_train (lrate : R) (prior post : ing_par) (rows : list (list R)) : ing_par :=
  std_update ig_nat ig_from_nat lrate prior post
    (colsum (length (ig_mean prior) + 3) (map in_suff_stats rows)).

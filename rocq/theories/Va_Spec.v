(** Quantities of the evidence lower bound of a VAE. *)
From Coq Require Import Reals List Arith.
From Verif Require Import Prelude Vec Dist_Model Dist_Spec Gs_Model Gs_Spec.
Import ListNotations.
Local Open Scope R_scope.

(** log-density of a Normal with diagonal covariance *)
Definition diag_logpdf (D : nat) (p : ndc_par) (x : list R) : R :=
  sumf (fun d => ln (gauss_pdf (nth d x 0) (nth d (nc_mean p) 0) (/ nth d (nc_cov p) 0))) (seq 0 D).

(** Reconstruction, cross-entropy and entropy of one frame, as averages over its
    latent samples *)
Definition recon (D : nat) (dec : list R -> ndc_par) (x : list R) (zs : list (list R)) : R :=
  mean_of (fun z => diag_logpdf D (dec z) x) zs.

Definition avg_logq (d : nat) (post : ndc_par) (zs : list (list R)) : R := mean_of (diag_logpdf d post) zs.

Definition no_ndc : ndc_par := {| nc_mean := []; nc_cov := [] |}.

(** i-th data point: reconstruction - (E log q - E log p) *)
Definition frame_bound (d D : nat) (dec : list R -> ndc_par) (logp : list R -> R)
    (posts : list ndc_par) (samples : list (list (list R))) (data : list (list R)) (lw kw : R) (i : nat) : R :=
  let zs := nth i samples [] in
  lw * recon D dec (nth i data []) zs - kw * (avg_logq d (nth i posts no_ndc) zs - mean_of logp zs).

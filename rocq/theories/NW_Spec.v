(** Textbook notions for the full covariance families. *)
From Coq Require Import Reals List Arith Bool.
From Verif Require Import Prelude Vec Lgamma Dist_Model Dist_Spec Mat NW_Model.
Import ListNotations.
Local Open Scope R_scope.

(** Proper Normal-Wishart: symmetric positive definite scale matrix, positive
    scale and more than D - 1 degrees of freedom. *)
Definition nw_ok (D : nat) (p : nw_par) : Prop :=
  length (nw_mean p) = D /\ is_mat D (nw_W p) /\ posdef D (mget (nw_W p)) /\
  0 < nw_scale p /\ INR D - 1 < nw_dof p.

Definition nf_ok (D : nat) (p : nf_par) : Prop :=
  length (nf_mean p) = D /\ is_mat D (nf_cov p) /\ posdef D (mget (nf_cov p)).

(** Weighted scatter around c *)
Definition Scat (i j : nat) (c : list R) (data : wdata) : R :=
  sumf (fun gx => fst gx * (nth i (snd gx) 0 - nth i c 0) * (nth j (snd gx) 0 - nth j c 0)) data.

(** Posteriors reachable by successful training steps, starting from any
    proper posterior. *)
Inductive nw_reach (D : nat) (prior : nw_par) : nw_par -> Prop :=
| nwr_init : forall p, nw_ok D p -> nw_reach D prior p
| nwr_step : forall p q lrate data,
    nw_reach D prior p -> 0 <= lrate <= 1 -> frames_of_dim D data -> nonneg_weights data ->
    nw_update lrate prior p (wstats (D + (D * D + 2)) nl_suff_stats data) = Ok q ->
    nw_reach D prior q.

(** Log-density of a Gaussian vector.  The precision matrix is L L^T with L
    lower triangular with a positive diagonal: L^T (x - m) has independent
    standard normal coordinates and the Jacobian of x -> L^T (x - m) is the
    product of the diagonal of L. *)
Definition gauss_logpdf (D : nat) (L : fm) (m x : list R) : R :=
  sumf (fun i => ln (gauss_pdf (sumf (fun k => L k i * (nth k x 0 - nth k m 0)) (seq 0 D)) 0 1)
               + ln (L i i)) (seq 0 D).

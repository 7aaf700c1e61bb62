(** Textbook notions the distribution models are compared with. *)
From Coq Require Import Reals List Arith Bool.
From Verif Require Import Prelude Vec Lgamma Dist_Model.
Import ListNotations.
Local Open Scope R_scope.

(** A weighted data set: responsibilities and frames. *)
Definition wdata : Type := list (R * list R).

Definition frames_of_dim (d : nat) (data : wdata) : Prop :=
  Forall (fun gx => length (snd gx) = d) data.

Definition nonneg_weights (data : wdata) : Prop := Forall (fun gx => 0 <= fst gx) data.

(** Weighted sum of the statistics of the frames, as the models accumulate it
    (resps.t() @ stats). *)
Definition wstats (n : nat) (f : list R -> list R) (data : wdata) : list R :=
  colsum n (map (fun gx => vscale (fst gx) (f (snd gx))) data).

(** Total weight, weighted sums of a coordinate. *)
Definition Nw (data : wdata) : R := sumf fst data.
Definition Sw (i : nat) (data : wdata) : R :=
  sumf (fun gx => fst gx * nth i (snd gx) 0) data.

(** Weighted squared deviations of coordinate i from c. *)
Definition Dev (i : nat) (c : R) (data : wdata) : R :=
  sumf (fun gx => fst gx * (nth i (snd gx) 0 - c) ^ 2) data.

(** Proper parameters *)
Definition dir_ok (d : nat) (a : list R) : Prop :=
  length a = d /\ (0 < d)%nat /\ Forall (fun x => 0 < x) a.

Definition gamma_ok (d : nat) (p : gamma_par) : Prop :=
  length (g_shape p) = d /\ length (g_rate p) = d /\
  Forall (fun x => 0 < x) (g_shape p) /\ Forall (fun x => 0 < x) (g_rate p).

Definition ng_ok (d : nat) (p : ng_par) : Prop :=
  length (ng_mean p) = d /\ length (ng_rates p) = d /\
  0 < ng_scale p /\ 0 < ng_shape p /\ Forall (fun x => 0 < x) (ng_rates p).

Definition ig_ok (d : nat) (p : ing_par) : Prop :=
  length (ig_mean p) = d /\ 0 < ig_scale p /\ 0 < ig_shape p /\ 0 < ig_rate p.

Definition ndc_ok (d : nat) (p : ndc_par) : Prop :=
  length (nc_mean p) = d /\ length (nc_cov p) = d /\ Forall (fun x => 0 < x) (nc_cov p).

(** Posteriors reachable by training from any proper posterior: each step uses
    its own learning rate in [0,1] and the statistics of its own weighted data
    set with non-negative weights. *)
Inductive reach {P : Type} (nat_of : P -> list R) (from_nat : list R -> P)
  (ok : P -> Prop) (data_ok : wdata -> Prop) (stats_of : wdata -> list R) (prior : P)
  : P -> Prop :=
| reach_init : forall p, ok p -> reach nat_of from_nat ok data_ok stats_of prior p
| reach_step : forall p lrate data,
    reach nat_of from_nat ok data_ok stats_of prior p ->
    0 <= lrate <= 1 -> data_ok data ->
    reach nat_of from_nat ok data_ok stats_of prior
      (std_update nat_of from_nat lrate prior p (stats_of data)).

(** Densities *)
Definition gauss_pdf (x m prec : R) : R :=
  sqrt (prec / (2 * PI)) * exp (- prec * (x - m) ^ 2 / 2).

(** Gamma density: b^a x^(a-1) exp(-b x) / Gamma(a), Gamma = exp lgamma. *)
Definition gamma_pdf (x a b : R) : R :=
  Rpower b a * Rpower x (a - 1) * exp (- b * x) / exp (lgamma a).

(** Softmax of (r_1, ..., r_{d-1}, 0). *)
Definition softmax0 (r : list R) : list R :=
  map (fun x => exp x / (1 + rsum (map exp r))) r ++ [1 / (1 + rsum (map exp r))].

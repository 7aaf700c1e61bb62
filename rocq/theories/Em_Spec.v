(** What the emissions of mkphones should be. *)
From Coq Require Import Reals String List Arith Bool.
From Verif Require Import Prelude Vec Set_Model Dist_Model Dist_Spec Mat NW_Model NW_Spec Vt_Model Vt_Spec Em_Model.
Import ListNotations.
Local Open Scope R_scope.

(** The documented covariance types *)
Definition kind_of (cov_type : string) (k : kind) : Prop :=
  (cov_type = "full"%string /\ k = KFull) \/ (cov_type = "diagonal"%string /\ k = KDiag) \/
  (cov_type = "isotropic"%string /\ k = KIso).

(** Sensible values of the configuration: some Normals, a positive strength *)
Definition emconf_ok (k : kind) (gc : emconf) : Prop :=
  (1 <= ec_n gc)%nat /\ 0 < ec_strength gc /\ kind_of (ec_cov gc) k.

(** Statistics of features none of which is constant *)
Definition features_ok (D : nat) (mean var : list R) : Prop :=
  (1 <= D)%nat /\ length mean = D /\ length var = D /\ Forall (fun v => 0 < v) var.

(** A Normal of the set: the prior has the mean of the features, their
    precisions on average (the precision of the feature of largest variance for
    all of them when isotropic) and the strength asked for; the posterior differs
    from it by a mean moved by [noise] standard deviations times the draws. *)
Definition around (mean var : list R) (s noise : R) (eps : nat -> R) (c : cell) : Prop :=
  let D := length mean in
  let moved m := length m = D /\ forall i, (i < D)%nat ->
    nth i m 0 = nth i mean 0 + noise * sqrt (nth i var 0) * eps i in
  match c with
  | CDiag p q => ng_mean p = mean /\ ng_scale p = s /\ ng_shape p = s /\
      (forall i, (i < D)%nat -> ng_shape p / nth i (ng_rates p) 0 = / nth i var 0) /\
      moved (ng_mean q) /\ ng_scale q = ng_scale p /\ ng_shape q = ng_shape p /\ ng_rates q = ng_rates p
  | CIso p q => ig_mean p = mean /\ ig_scale p = s /\ ig_shape p = s /\
      (exists v, In v var /\ (forall u, In u var -> u <= v) /\ ig_shape p / ig_rate p = / v) /\
      moved (ig_mean q) /\ ig_scale q = ig_scale p /\ ig_shape q = ig_shape p /\ ig_rate q = ig_rate p
  | CFull p q => nw_mean p = mean /\ nw_scale p = s /\ nw_dof p = s + INR D - 1 /\
      is_inverse D (fun i j => if Nat.eqb i j then nth i var 0 else 0) (fun i j => nw_dof p * mget (nw_W p) i j) /\
      moved (nw_mean q) /\ nw_scale q = nw_scale p /\ nw_dof q = nw_dof p /\ nw_W q = nw_W p
  | CWeights _ _ => False
  end.

(** Weights of a mixture of n Normals: equal on average, with that strength, and
    not moved *)
Definition even_weights (n : nat) (s : R) (c : cell) : Prop :=
  match c with
  | CWeights p q => p = q /\ length p = n /\ forall i, (i < n)%nat -> nth i p 0 = s / INR n
  | _ => False
  end.

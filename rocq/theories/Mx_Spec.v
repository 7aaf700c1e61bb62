(** The evidence bound of a mixture, from the expectations of the logarithms of
    the weights under their posteriors. *)
From Coq Require Import Reals List Arith Bool.
From Verif Require Import Prelude Vec Lgamma Set_Model Set_Spec Dist_Model Dist_Spec SB_Model SB_Spec
  Sk_Model Sk_Spec Vt_Model Vt_Spec Mx_Model.
Import ListNotations.
Local Open Scope R_scope.

(** E[ln weight of component k] when the weights are broken off a stick in the
    order [ord]: E[ln v_k] plus E[ln (1 - v_j)] for all the j broken before k. *)
Fixpoint stick_elog (ord : list nat) (post : list (R * R)) (k : nat) : R :=
  match ord with
  | [] => 0
  | j :: t => if Nat.eqb j k then e_ln_v (nth k post (0, 0))
              else e_ln_rest (nth j post (0, 0)) + stick_elog t post k
  end.

Definition elog_weight (c : wpar) (k : nat) : R :=
  match c with
  | WDir _ q => digamma (nth k q 0) - digamma (rsum q)
  | WStick _ o q => stick_elog o q k
  | WHyper _ h => stick_elog (h_ord h) (h_sticks h) k
  end.

(** E_q[ln Dirichlet(p)] *)
Definition dir_cross (q p : list R) : R :=
  sumf (fun k => (nth k p 0 - 1) * (digamma (nth k q 0) - digamma (rsum q))) (seq 0 (length q))
  - (sumf lgamma p - lgamma (sumf (fun x => x) p)).

(** Divergence of the posterior of the weights from their prior; with a
    hyper-prior, of the joint posterior of the sticks and of the concentration *)
Definition weights_kl (c : wpar) : R :=
  match c with
  | WDir p q => dir_cross q q - dir_cross q p
  | WStick p _ q =>
      sumf (fun k => beta_cross (nth k q (0, 0)) (nth k q (0, 0)) - beta_cross (nth k q (0, 0)) (nth k p (0, 0)))
        (seq 0 (length q))
  | WHyper g h =>
      let a := nth 0 (g_shape (h_gamma h)) 0 in let b := nth 0 (g_rate (h_gamma h)) 0 in
      let a0 := nth 0 (g_shape g) 0 in let b0 := nth 0 (g_rate g) 0 in
      sumf (fun q => beta_cross q q - ((digamma a - ln b) + (a / b - 1) * e_ln_rest q)) (h_sticks h)
      + (gamma_cross a b a b - gamma_cross a b a0 b0)
  end.

(** Proper weights for n components.  The sticks have the same prior, which is
    (1, mean of the concentration) with a hyper-prior. *)
Definition mxw_ok (n : nat) (c : wpar) : Prop :=
  match c with
  | WDir p q => dir_ok n p /\ dir_ok n q
  | WStick p o q =>
      is_order n o /\ length q = n /\ positive_sticks q /\
      exists ab, 0 < fst ab /\ 0 < snd ab /\ same_prior ab n p
  | WHyper g h =>
      is_order n (h_ord h) /\ length (h_sticks h) = n /\ positive_sticks (h_sticks h) /\
      gamma_ok 1 g /\ gamma_ok 1 (h_gamma h) /\
      same_prior (1, nth 0 (g_shape (h_gamma h)) 0 / nth 0 (g_rate (h_gamma h)) 0) n (h_prior h)
  end.

Definition mix_ok (k : kind) (D : nat) (skel : mset) (s : mixst) : Prop :=
  typed k D (mx_comps s) skel /\ (0 < size skel)%nat /\ mxw_ok (size skel) (mx_weights s).

(** Frames of dimension D, labelled with components of the mixture *)
Definition lframe_ok (k : kind) (D : nat) (skel : mset) (f : lframe) : Prop :=
  (exists x, fst f = suff k x /\ frame_ok k D x) /\
  match snd f with Some j => (j < size skel)%nat | None => True end.

(** The emission of each component *)
Definition mx_ems (skel : mset) (s : mixst) : list em := denote (inst (forms (mx_comps s)) skel).

(** Log-joint of a frame and of its component *)
Definition mx_joint (skel : mset) (s : mixst) (x : list R) (j : nat) : R :=
  elog_weight (mx_weights s) j + em_llh x (nth j (mx_ems skel s) e0).

(** All the components for a frame without label; its component else *)
Definition frame_bound (skel : mset) (s : mixst) (f : lframe) : R :=
  match snd f with
  | None => ln (sumf (fun j => exp (mx_joint skel s (fst f) j)) (seq 0 (size skel)))
  | Some j => mx_joint skel s (fst f) j
  end.

Definition mx_bound (w : R) (skel : mset) (frames : list lframe) (s : mixst) : R :=
  w * sumf (frame_bound skel s) frames - (weights_kl (mx_weights s) + total_kl skel (mx_comps s)).

(** Learning rates for which a step is known not to decrease the bound: any for
    Dirichlet weights, 1 for the stick-breaking weights (C165) *)
Definition rate_ok (c : wpar) (lrate : R) (uw : bool) : Prop :=
  0 <= lrate <= 1 /\ (uw = true -> match c with WDir _ _ => True | _ => lrate = 1 end).

(** Posterior probability that component j produced a frame *)
Definition mx_resp (skel : mset) (s : mixst) (f : lframe) (j : nat) : R :=
  match snd f with
  | None => exp (mx_joint skel s (fst f) j) / sumf (fun i => exp (mx_joint skel s (fst f) i)) (seq 0 (size skel))
  | Some l => if Nat.eqb j l then 1 else 0
  end.

(** Expected number of frames of component j *)
Definition mx_count (w : R) (skel : mset) (frames : list lframe) (s : mixst) (j : nat) : R :=
  w * sumf (fun f => mx_resp skel s f j) frames.

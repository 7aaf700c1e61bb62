(** Notions used to state the properties of the feature extraction. *)
From Coq Require Import Reals List Arith Bool ZArith Ascii.
From Verif Require Import Prelude Vec.
Import ListNotations.
Local Open Scope R_scope.

(** Triangle of height one over (s, e) with top at c *)
Definition tri (s c e x : R) : R := Rmax 0 (Rmin ((x - s) / (c - s)) ((e - x) / (e - c))).

(** Entry of a feature matrix where the first and last frames are repeated
    for ever; the frame index is t + k - w. *)
Definition clamped (fea : list (list R)) (c t k w : nat) : R :=
  nth c (nth (Nat.min (t + k - w) (length fea - 1)) fea []) 0.

(** Squared error of the line a + b (k - w) on the window of 2w+1 frames around t *)
Definition sse (fea : list (list R)) (c t w : nat) (a b : R) : R :=
  sumf (fun k => (clamped fea c t k w - (a + b * (INR k - INR w))) ^ 2) (seq 0 (2 * w + 1)).

(** The slope of a least squares line *)
Definition ls_slope (fea : list (list R)) (c t w : nat) (b : R) : Prop :=
  exists a, forall a' b', sse fea c t w a b <= sse fea c t w a' b'.

(** Mean and variance of a column of a list of frames *)
Definition col_mean (c : nat) (fea : list (list R)) : R :=
  sumf (fun r => nth c r 0) fea / INR (length fea).
Definition col_var (c : nat) (fea : list (list R)) : R :=
  sumf (fun r => (nth c r 0 - col_mean c fea) ^ 2) fea / INR (length fea).

Definition matrix (dim : nat) (fea : list (list R)) : Prop := Forall (fun r => length r = dim) fea.
Definition mscale (a : R) (fea : list (list R)) : list (list R) := map (map (Rmult a)) fea.
Definition madd (x y : list (list R)) : list (list R) := map2 vadd x y.

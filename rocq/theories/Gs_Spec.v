(** What the subspace model is meant to compute, independently of how the
    tensors are sliced and reshaped. *)
From Coq Require Import Reals List Arith.
From Verif Require Import Prelude Vec Dist_Model Dist_Spec Mat NW_Model NW_Spec Gs_Model.
Import ListNotations.
Local Open Scope R_scope.

(** A structured super-vector: for each parameter, for each of its pdfs, one
    vector. *)
Notation svec := (list (list (list R))) (only parsing).
Definition flat (sv : svec) : list R := concat (map (@concat R) sv).

(** Real vectors: sp_n vectors of dimension sp_dim for each parameter. *)
Definition real_shape (params : list sparam) (sv : svec) : Prop :=
  Forall2 (fun p bs => length bs = sp_n p /\ Forall (fun b => length b = sp_dim p) bs) params sv.

(** Statistics and pdf-vectors: sp_n vectors of dimension sp_q. *)
Definition pdf_shape (params : list sparam) (sv : svec) : Prop :=
  Forall2 (fun p bs => length bs = sp_n p /\ Forall (fun b => length b = sp_q p) bs) params sv.

(** The pdf-vector of one real vector *)
Definition sp_val (p : sparam) (r : list R) : list R :=
  match sp_pdf p r with Ok v => v | Err _ => [] end.

(** A likelihood function: real vectors of the announced dimension are mapped
    to vectors with the dimension of the statistics. *)
Definition sparam_ok (p : sparam) : Prop :=
  (0 < sp_n p)%nat /\ (0 < sp_dim p)%nat /\ (0 < sp_q p)%nat /\
  forall r, length r = sp_dim p -> exists v, sp_pdf p r = Ok v /\ length v = sp_q p.

(** pdf by pdf image of a structured super-vector *)
Definition pdf_image (params : list sparam) (sv : svec) : svec :=
  map2 (fun p bs => map (sp_val p) bs) params sv.

(** Arithmetic mean of a function of the elements of a list *)
Definition mean_of {A : Type} (f : A -> R) (l : list A) : R := sumf f l / INR (length l).

(** W^T x + b: w holds the in x out weights row by row *)
Definition affine (ind out : nat) (w b x : list R) : list R :=
  map (fun d => sumf (fun k => nth k x 0 * nth (k * out + d) w 0) (seq 0 ind) + nth d b 0) (seq 0 out).

Definition linear (ind out : nat) (w x : list R) : list R :=
  map (fun d => sumf (fun k => nth k x 0 * nth (k * out + d) w 0) (seq 0 ind)) (seq 0 out).

(** <pdf-vectors, statistics> summed over the parameters and their pdfs *)
Definition sv_dot (a b : svec) : R := rsum (map2 (fun x y => rsum (map2 dot x y)) a b).

Definition std_normal_logpdf (eps : list R) : R := sumf (fun e => ln (gauss_pdf e 0 1)) eps.

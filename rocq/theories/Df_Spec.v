(** What the arguments of the [create] methods mean. *)
From Coq Require Import Reals List Arith Bool.
From Verif Require Import Prelude Vec Dist_Model Mat NW_Model Df_Model.
Import ListNotations.
Local Open Scope R_scope.

(** Covariance matrix denoted by the [cov] argument (docstring of
    Normal.create): a scalar (times the identity; a tensor without dimension or
    with one element), the diagonal, or the matrix. *)
Inductive denotes (D : nat) : targ -> fm -> Prop :=
| dn_scalar : forall c, denotes D (T0 c) (fun i j => if Nat.eqb i j then c else 0)
| dn_scalar1 : forall c, denotes D (T1 [c]) (fun i j => if Nat.eqb i j then c else 0)
| dn_diag : forall v, length v = D -> denotes D (T1 v) (fun i j => if Nat.eqb i j then nth i v 0 else 0)
| dn_full : forall m, is_mat D m -> denotes D (T2 m) (mget m).

Definition dimensionless (t : targ) : Prop := exists c, t = T0 c.

(** the largest diagonal entry *)
Definition is_max_diag (D : nat) (C : fm) (v : R) : Prop :=
  (exists i, (i < D)%nat /\ v = C i i) /\ (forall i, (i < D)%nat -> C i i <= v).

(** a matrix of the program and the matrix it stands for *)
Definition is_matrix (D : nat) (M : lmat) (C : fm) : Prop := is_mat D M /\ meq D (mget M) C.

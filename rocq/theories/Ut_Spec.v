(** Notions used to state the properties of the utility functions. *)
From Coq Require Import Reals List ZArith Bool String.
From Verif Require Import Prelude Mat Ut_Model.
Import ListNotations.
Local Open Scope R_scope.

(** Probability mass of an extended log-probability *)
Definition mass (x : ext) : R := match x with EFin r => exp r | _ => 0 end.

(** What log-sum-exp should return on a non-empty slice *)
Definition lse_spec (l : list ext) (v : ext) : Prop :=
  (In ENaN l -> v = ENaN) /\
  (~ In ENaN l -> In EPInf l -> v = EPInf) /\
  (Forall (eq ENInf) l -> v = ENInf) /\
  (~ In ENaN l -> ~ In EPInf l -> ~ Forall (eq ENInf) l -> v = EFin (ln (sumf mass l))).

(** Slices without NaN and +inf, with at least one finite entry *)
Definition regular (l : list ext) : Prop :=
  ~ In ENaN l /\ ~ In EPInf l /\ exists r, In (EFin r) l.

(** Contract of torch.symeig on a symmetric matrix: orthogonal eigenvectors in
    columns, eigenvalues in ascending order. *)
Definition symeig_of (n : nat) (A : fm) (evals : fv) (V : fm) : Prop :=
  meq n (mmul n V (mT V)) idm /\ meq n (mmul n (mT V) V) idm /\
  meq n A (mmul n (mmul n V (fun i j => if Nat.eq_dec i j then evals i else 0)) (mT V)) /\
  forall i j, (i <= j)%nat -> (j < n)%nat -> evals i <= evals j.

(** Traces of [reserve_gpu] *)
Definition polls (ev : list gpu_event) : nat :=
  List.length (filter (fun e => match e with Poll _ => true | _ => false end) ev).

(** GPU [i] was listed, idle at poll [t], and its allocation gave [ok] *)
Definition tried (env : gpu_env) (t : nat) (i : Z) (ok : bool) : Prop :=
  exists u, In (u, i) (gpus env) /\ ~ In u (active env t) /\ alloc_ok env t i = ok.

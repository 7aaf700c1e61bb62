(** Specification vocabulary for the optimisation properties. *)
From Coq Require Import Reals List Arith Bool Permutation.
From Verif Require Import Prelude Vec Opt_Model.
Import ListNotations.
Local Open Scope R_scope.

(** An iteration order of finite sets. *)
Definition is_enum (enum : list nat -> list nat) : Prop :=
  forall l, Permutation (enum l) l.

(** Same observable content of two objectives: the value, the statistics of
    each parameter, the set of connected parameters, the sizes. *)
Definition obs_eq (e1 e2 : elbo) : Prop :=
  e_value e1 = e_value e2 /\
  (forall k, dget_acc (e_acc e1) k = dget_acc (e_acc e2) k) /\
  (forall k, In k (e_params e1) <-> In k (e_params e2)) /\
  e_mb e1 = e_mb e2 /\ e_ds e1 = e_ds e2.

Definition obs_res (r1 r2 : result elbo) : Prop :=
  match r1, r2 with
  | Ok a, Ok b => obs_eq a b
  | Err a, Err b => a = b
  | _, _ => False
  end.

(** Any way of summing a collection of objectives. *)
Inductive etree : Type :=
| Leaf (e : elbo)
| Node (l r : etree).

Fixpoint leaves (t : etree) : list elbo :=
  match t with Leaf e => [e] | Node l r => leaves l ++ leaves r end.

Fixpoint eval (enum : list nat -> list nat) (t : etree) : result elbo :=
  match t with
  | Leaf e => Ok e
  | Node l r => bindr (eval enum l) (fun a => bindr (eval enum r) (fun b => elbo_add enum a b))
  end.

(** The statistics credited to parameter k by a collection of objectives,
    component i. *)
Definition comp (i k : nat) (e : elbo) : R :=
  match dget_acc (e_acc e) k with Some v => nth i v 0 | None => 0 end.

Definition has (k : nat) (e : elbo) : Prop := exists v, dget_acc (e_acc e) k = Some v.

(** All the statistics of parameter k have the same size. *)
Definition sized (k n : nat) (e : elbo) : Prop :=
  forall v, dget_acc (e_acc e) k = Some v -> length v = n.

Definition heap_eq (h1 h2 : heap) : Prop := forall k, h1 k = h2 k.

Definition nsteps (ops : list op) : nat :=
  length (filter (fun a => match a with OStep => true | _ => false end) ops).

Definition not_saveload (a : op) : bool := match a with OSaveLoad => false | _ => true end.

(** n-fold application *)
Fixpoint iter {A} (n : nat) (f : A -> A) (x : A) : A :=
  match n with O => x | S m => f (iter m f x) end.

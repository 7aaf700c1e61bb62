(** Shared vocabulary: results with exceptions, finite sums over the reals,
    and elementary list lemmas.  Nothing here is specific to beer. *)
From Coq Require Import Reals List Lra Lia Arith Permutation Bool.
Import ListNotations.

(** Python exceptions as values. *)
Inductive exn : Type :=
| ValueError | KeyError | IndexError | ZeroDivisionError | TypeError
| AttributeError | NameError | RuntimeError | OtherError.

Inductive result (A : Type) : Type :=
| Ok (a : A)
| Err (e : exn).
Arguments Ok {A} a.
Arguments Err {A} e.

Definition bindr {A B : Type} (r : result A) (f : A -> result B) : result B :=
  match r with Ok a => f a | Err e => Err e end.

Fixpoint mapM {A B : Type} (f : A -> result B) (l : list A) : result (list B) :=
  match l with
  | [] => Ok []
  | x :: t => bindr (f x) (fun y => bindr (mapM f t) (fun ys => Ok (y :: ys)))
  end.

Fixpoint foldM {A S : Type} (f : S -> A -> result S) (l : list A) (s : S)
  : result S :=
  match l with
  | [] => Ok s
  | x :: t => bindr (f s x) (fun s' => foldM f t s')
  end.

Local Open Scope R_scope.

(** ** Finite sums *)
Fixpoint rsum (l : list R) : R :=
  match l with
  | [] => 0
  | x :: t => x + rsum t
  end.

Definition sumf {A : Type} (f : A -> R) (l : list A) : R := rsum (map f l).

Fixpoint rprod (l : list R) : R :=
  match l with
  | [] => 1
  | x :: t => x * rprod t
  end.

Lemma rsum_app l1 l2 : rsum (l1 ++ l2) = rsum l1 + rsum l2.
Proof. induction l1; simpl; lra. Qed.

Lemma sumf_nil {A} (f : A -> R) : sumf f [] = 0.
Proof. reflexivity. Qed.

Lemma sumf_cons {A} (f : A -> R) x l : sumf f (x :: l) = f x + sumf f l.
Proof. reflexivity. Qed.

Lemma sumf_app {A} (f : A -> R) l1 l2 :
  sumf f (l1 ++ l2) = sumf f l1 + sumf f l2.
Proof. unfold sumf. rewrite map_app. apply rsum_app. Qed.

Lemma rsum_perm l1 l2 : Permutation l1 l2 -> rsum l1 = rsum l2.
Proof. induction 1; simpl; lra. Qed.

Lemma sumf_perm {A} (f : A -> R) l1 l2 :
  Permutation l1 l2 -> sumf f l1 = sumf f l2.
Proof. intros; apply rsum_perm. now apply Permutation_map. Qed.

Lemma sumf_ext {A} (f g : A -> R) l :
  (forall x, In x l -> f x = g x) -> sumf f l = sumf g l.
Proof.
  induction l as [|x l IH]; intros H; [reflexivity|].
  rewrite !sumf_cons. rewrite H by (left; reflexivity).
  rewrite IH; [reflexivity|]. intros; apply H; now right.
Qed.

Lemma sumf_plus {A} (f g : A -> R) l :
  sumf (fun x => f x + g x) l = sumf f l + sumf g l.
Proof. induction l; [unfold sumf; simpl; lra|]. rewrite !sumf_cons, IHl; lra. Qed.

Lemma sumf_minus {A} (f g : A -> R) l :
  sumf (fun x => f x - g x) l = sumf f l - sumf g l.
Proof. induction l; [unfold sumf; simpl; lra|]. rewrite !sumf_cons, IHl; lra. Qed.

Lemma sumf_opp {A} (f : A -> R) l :
  sumf (fun x => - f x) l = - sumf f l.
Proof. induction l; [unfold sumf; simpl; lra|]. rewrite !sumf_cons, IHl; lra. Qed.

Lemma sumf_scal_l {A} c (f : A -> R) l :
  sumf (fun x => c * f x) l = c * sumf f l.
Proof. induction l; [unfold sumf; simpl; lra|]. rewrite !sumf_cons, IHl; lra. Qed.

Lemma sumf_scal_r {A} c (f : A -> R) l :
  sumf (fun x => f x * c) l = sumf f l * c.
Proof. induction l; [unfold sumf; simpl; lra|]. rewrite !sumf_cons, IHl; lra. Qed.

Lemma sumf_zero {A} (f : A -> R) l :
  (forall x, In x l -> f x = 0) -> sumf f l = 0.
Proof.
  induction l as [|x l IH]; intros H; [reflexivity|].
  rewrite sumf_cons, IH, H; [lra|now left|intros; apply H; now right].
Qed.

Lemma sumf_const {A} c (l : list A) : sumf (fun _ => c) l = INR (length l) * c.
Proof.
  induction l as [|x l IH]; [unfold sumf; simpl; lra|].
  rewrite sumf_cons, IH. simpl length. rewrite S_INR. lra.
Qed.

Lemma sumf_map {A B} (g : A -> B) (f : B -> R) l :
  sumf f (map g l) = sumf (fun x => f (g x)) l.
Proof. unfold sumf. now rewrite map_map. Qed.

Lemma sumf_flat_map {A B} (g : A -> list B) (f : B -> R) l :
  sumf f (flat_map g l) = sumf (fun x => sumf f (g x)) l.
Proof.
  induction l as [|x l IH]; [reflexivity|].
  simpl. rewrite sumf_app, sumf_cons, IH. reflexivity.
Qed.

Lemma sumf_swap {A B} (f : A -> B -> R) l1 l2 :
  sumf (fun a => sumf (fun b => f a b) l2) l1 =
  sumf (fun b => sumf (fun a => f a b) l1) l2.
Proof.
  induction l1 as [|x l1 IH].
  - rewrite sumf_nil. symmetry. apply sumf_zero. intros; reflexivity.
  - rewrite sumf_cons, IH, <- sumf_plus. apply sumf_ext. intros. reflexivity.
Qed.

Lemma sumf_nonneg {A} (f : A -> R) l :
  (forall x, In x l -> 0 <= f x) -> 0 <= sumf f l.
Proof.
  induction l as [|x l IH]; intros H; [unfold sumf; simpl; lra|].
  rewrite sumf_cons. assert (0 <= f x) by (apply H; now left).
  assert (0 <= sumf f l) by (apply IH; intros; apply H; now right). lra.
Qed.

Lemma sumf_le {A} (f g : A -> R) l :
  (forall x, In x l -> f x <= g x) -> sumf f l <= sumf g l.
Proof.
  induction l as [|x l IH]; intros H; [unfold sumf; simpl; lra|].
  rewrite !sumf_cons. assert (f x <= g x) by (apply H; now left).
  assert (sumf f l <= sumf g l) by (apply IH; intros; apply H; now right). lra.
Qed.

Lemma sumf_ge_term {A} (f : A -> R) l a :
  (forall x, In x l -> 0 <= f x) -> In a l -> f a <= sumf f l.
Proof.
  induction l as [|x l IH]; intros H Ha; [contradiction|].
  rewrite sumf_cons. destruct Ha as [->|Ha].
  - assert (0 <= sumf f l) by (apply sumf_nonneg; intros; apply H; now right). lra.
  - assert (0 <= f x) by (apply H; now left).
    assert (f a <= sumf f l) by (apply IH; auto; intros; apply H; now right). lra.
Qed.

Lemma sumf_pos {A} (f : A -> R) l a :
  (forall x, In x l -> 0 <= f x) -> In a l -> 0 < f a -> 0 < sumf f l.
Proof. intros. pose proof (sumf_ge_term f l a H H0). lra. Qed.

Lemma sumf_zero_inv {A} (f : A -> R) l :
  (forall x, In x l -> 0 <= f x) -> sumf f l = 0 ->
  forall x, In x l -> f x = 0.
Proof.
  intros H H0 x Hx. pose proof (sumf_ge_term f l x H Hx).
  specialize (H x Hx). lra.
Qed.

(** Kronecker sums over index ranges. *)
Lemma sumf_single {A} (f : A -> R) l a :
  NoDup l -> In a l -> (forall x, In x l -> x <> a -> f x = 0) -> sumf f l = f a.
Proof.
  induction l as [|x l IH]; intros Hnd Ha H; [contradiction|].
  inversion_clear Hnd as [|? ? Hx Hnd']. rewrite sumf_cons.
  destruct Ha as [->|Ha].
  - rewrite sumf_zero; [lra|]. intros y Hy. apply H; [now right|]. congruence.
  - rewrite IH; auto; [|intros; apply H; auto; now right].
    rewrite H; [lra|now left|]. congruence.
Qed.

Lemma sumf_seq_single (f : nat -> R) n k :
  (k < n)%nat -> (forall x, (x < n)%nat -> x <> k -> f x = 0) ->
  sumf f (seq 0 n) = f k.
Proof.
  intros Hk H. apply sumf_single.
  - apply seq_NoDup.
  - apply in_seq; lia.
  - intros x Hx. apply in_seq in Hx. apply H; lia.
Qed.

Lemma sumf_filter {A} (p : A -> bool) (f : A -> R) l :
  sumf f (filter p l) = sumf (fun x => if p x then f x else 0) l.
Proof.
  induction l as [|x l IH]; [reflexivity|].
  simpl. rewrite sumf_cons. destruct (p x).
  - rewrite sumf_cons, IH. reflexivity.
  - rewrite IH. lra.
Qed.

Lemma rsum_sumf l : rsum l = sumf (fun x => x) l.
Proof. unfold sumf. now rewrite map_id. Qed.

Lemma rsum_nth l : rsum l = sumf (fun i => nth i l 0) (seq 0 (length l)).
Proof.
  unfold sumf. f_equal.
  induction l as [|x l IH]; [reflexivity|].
  simpl. f_equal. rewrite IH at 1. rewrite <- seq_shift, map_map. reflexivity.
Qed.

Lemma rprod_app l1 l2 : rprod (l1 ++ l2) = rprod l1 * rprod l2.
Proof. induction l1; simpl; [lra|]. rewrite IHl1. ring. Qed.

Lemma rprod_perm l1 l2 : Permutation l1 l2 -> rprod l1 = rprod l2.
Proof. induction 1; simpl; try lra. rewrite IHPermutation; reflexivity. Qed.

Lemma rprod_pos l : (forall x, In x l -> 0 < x) -> 0 < rprod l.
Proof.
  induction l as [|x l IH]; simpl; intros H; [lra|].
  apply Rmult_lt_0_compat; auto.
Qed.

Lemma rprod_nonneg l : (forall x, In x l -> 0 <= x) -> 0 <= rprod l.
Proof.
  induction l as [|x l IH]; simpl; intros H; [lra|].
  apply Rmult_le_pos; auto.
Qed.

Lemma exp_rsum l : exp (rsum l) = rprod (map exp l).
Proof. induction l; simpl; [apply exp_0|]. rewrite exp_plus, IHl. reflexivity. Qed.

(** ** Lists *)
Lemma map_nth_lt {A B} (f : A -> B) l n d d' :
  (n < length l)%nat -> nth n (map f l) d' = f (nth n l d).
Proof.
  revert n. induction l as [|x l IH]; intros [|n] H; simpl in *; try lia; auto.
  apply IH; lia.
Qed.

Lemma seq_nth_map {A} (d : A) l :
  map (fun i => nth i l d) (seq 0 (length l)) = l.
Proof.
  induction l as [|x l IH]; [reflexivity|].
  simpl. f_equal. rewrite <- seq_shift, map_map. exact IH.
Qed.

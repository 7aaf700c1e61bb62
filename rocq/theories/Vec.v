(** Vectors as lists of reals: the few tensor operations used by the models.
    Nothing here is specific to beer.  torch raises on operands of different
    sizes; here the longer operand is truncated, and the theorems carry the
    equality of the lengths where it matters. *)
From Coq Require Import Reals List Lra Lia Arith.
From Verif Require Import Prelude.
Import ListNotations.
Local Open Scope R_scope.

Fixpoint map2 {A B C : Type} (f : A -> B -> C) (l : list A) (m : list B) : list C :=
  match l, m with
  | a :: l', b :: m' => f a b :: map2 f l' m'
  | _, _ => []
  end.

Definition vadd : list R -> list R -> list R := map2 Rplus.
Definition vsub : list R -> list R -> list R := map2 Rminus.
Definition vmul : list R -> list R -> list R := map2 Rmult.
Definition vscale (c : R) (v : list R) : list R := map (Rmult c) v.
Definition dot (u v : list R) : R := rsum (vmul u v).
Definition vzeros (n : nat) : list R := repeat 0 n.

(** Sum over the rows of a matrix with n columns (torch sum(dim=0)). *)
Definition colsum (n : nat) (rows : list (list R)) : list R :=
  fold_right vadd (vzeros n) rows.

(** The k-th row of the identity matrix of size n (torch.eye). *)
Definition unit_row (n k : nat) : list R :=
  map (fun i => if Nat.eqb i k then 1 else 0) (seq 0 n).

Definition eye (n : nat) : list (list R) := map (unit_row n) (seq 0 n).

Lemma map2_length {A B C} (f : A -> B -> C) l m :
  length (map2 f l m) = Nat.min (length l) (length m).
Proof. revert m; induction l; intros [|]; simpl; auto. Qed.

Lemma map2_nth {A B C} (f : A -> B -> C) l m k da db dc :
  (k < length l)%nat -> (k < length m)%nat ->
  nth k (map2 f l m) dc = f (nth k l da) (nth k m db).
Proof.
  revert m k; induction l as [|a l IH]; intros [|b m] [|k]; simpl; intros; try lia; auto.
  apply IH; lia.
Qed.

Lemma map2_app {A B C} (f : A -> B -> C) l1 l2 m1 m2 :
  length l1 = length m1 ->
  map2 f (l1 ++ l2) (m1 ++ m2) = map2 f l1 m1 ++ map2 f l2 m2.
Proof. revert m1; induction l1; intros [|]; simpl; intros; try discriminate; auto.
  f_equal. apply IHl1. congruence. Qed.

Lemma map2_map {A B C D} (f : A -> B -> C) (g : D -> A) (h : D -> B) l :
  map2 f (map g l) (map h l) = map (fun x => f (g x) (h x)) l.
Proof. induction l; simpl; congruence. Qed.

Lemma map_map2 {A B C D} (g : C -> D) (f : A -> B -> C) l m :
  map g (map2 f l m) = map2 (fun a b => g (f a b)) l m.
Proof. revert m; induction l; intros [|]; simpl; auto; congruence. Qed.

Lemma vadd_length u v : length u = length v -> length (vadd u v) = length u.
Proof. intros H. unfold vadd. rewrite map2_length, <- H. lia. Qed.

Lemma vsub_length u v : length u = length v -> length (vsub u v) = length u.
Proof. intros H. unfold vsub. rewrite map2_length, <- H. lia. Qed.

Lemma vscale_length c u : length (vscale c u) = length u.
Proof. apply map_length. Qed.

Lemma vzeros_length n : length (vzeros n) = n.
Proof. apply repeat_length. Qed.

Lemma vadd_nth u v k :
  (k < length u)%nat -> (k < length v)%nat -> nth k (vadd u v) 0 = nth k u 0 + nth k v 0.
Proof. intros. unfold vadd. now rewrite (map2_nth _ _ _ _ 0 0) by auto. Qed.

Lemma vsub_nth u v k :
  (k < length u)%nat -> (k < length v)%nat -> nth k (vsub u v) 0 = nth k u 0 - nth k v 0.
Proof. intros. unfold vsub. now rewrite (map2_nth _ _ _ _ 0 0) by auto. Qed.

Lemma vscale_nth c u k : nth k (vscale c u) 0 = c * nth k u 0.
Proof.
  unfold vscale. replace 0 with (c * 0) at 1 by ring. apply map_nth.
Qed.

Lemma vzeros_nth n k : nth k (vzeros n) 0 = 0.
Proof. revert k; induction n; intros [|k]; simpl; auto. Qed.

Lemma vec_ext (u v : list R) :
  length u = length v -> (forall k, (k < length u)%nat -> nth k u 0 = nth k v 0) -> u = v.
Proof. intros. apply (nth_ext _ _ 0 0); auto. Qed.

Lemma rsum_vadd u v : length u = length v -> rsum (vadd u v) = rsum u + rsum v.
Proof.
  revert v; induction u as [|x u IH]; intros [|y v] H; simpl in *; try discriminate; [lra|].
  fold (vadd u v). rewrite IH by congruence. lra.
Qed.

Lemma rsum_vsub u v : length u = length v -> rsum (vsub u v) = rsum u - rsum v.
Proof.
  revert v; induction u as [|x u IH]; intros [|y v] H; simpl in *; try discriminate; [lra|].
  fold (vsub u v). rewrite IH by congruence. lra.
Qed.

Lemma rsum_vscale c u : rsum (vscale c u) = c * rsum u.
Proof. induction u as [|x u IH]; simpl; [lra|]. fold (vscale c u). rewrite IH. lra. Qed.

Lemma rsum_vzeros n : rsum (vzeros n) = 0.
Proof. induction n; simpl; [reflexivity|]. fold (vzeros n). lra. Qed.

Lemma colsum_length n rows :
  Forall (fun r => length r = n) rows -> length (colsum n rows) = n.
Proof.
  induction 1 as [|r rows Hr H IH]; simpl; [apply vzeros_length|].
  rewrite vadd_length; congruence.
Qed.

Lemma colsum_nth n rows k :
  Forall (fun r => length r = n) rows -> (k < n)%nat ->
  nth k (colsum n rows) 0 = sumf (fun r => nth k r 0) rows.
Proof.
  intros H Hk; induction H as [|r rows Hr H IH]; [apply vzeros_nth|].
  simpl. rewrite sumf_cons, vadd_nth, IH; auto; [congruence|].
  rewrite colsum_length; auto.
Qed.

Lemma rsum_colsum n rows :
  Forall (fun r => length r = n) rows ->
  rsum (colsum n rows) = sumf rsum rows.
Proof.
  induction 1 as [|r rows Hr H IH]; [apply rsum_vzeros|].
  simpl. rewrite rsum_vadd, sumf_cons, IH; auto.
  rewrite colsum_length; auto.
Qed.

Lemma dot_nth u v :
  length u = length v -> dot u v = sumf (fun k => nth k u 0 * nth k v 0) (seq 0 (length u)).
Proof.
  intros H. unfold dot, vmul. rewrite rsum_nth, map2_length, <- H, Nat.min_id.
  apply sumf_ext. intros k Hk. apply in_seq in Hk.
  rewrite (map2_nth _ _ _ _ 0 0) by lia. reflexivity.
Qed.

Lemma dot_app u1 u2 v1 v2 : length u1 = length v1 ->
  dot (u1 ++ u2) (v1 ++ v2) = dot u1 v1 + dot u2 v2.
Proof. intros. unfold dot, vmul. rewrite map2_app by auto. apply rsum_app. Qed.

Lemma dot_vscale_l c u v : dot (vscale c u) v = c * dot u v.
Proof.
  revert v; induction u as [|x u IH]; intros [|y v]; try (unfold dot; simpl; lra).
  change (c * x * y + dot (vscale c u) v = c * (x * y + dot u v)). rewrite IH. ring.
Qed.

Lemma unit_row_length n k : length (unit_row n k) = n.
Proof. unfold unit_row. now rewrite map_length, seq_length. Qed.

Lemma unit_row_nth n k i : (i < n)%nat ->
  nth i (unit_row n k) 0 = if Nat.eqb i k then 1 else 0.
Proof.
  intros H. unfold unit_row. rewrite (map_nth_lt _ _ _ 0%nat) by (rewrite seq_length; lia).
  rewrite seq_nth by lia. reflexivity.
Qed.

Lemma rsum_unit_row n k : (k < n)%nat -> rsum (unit_row n k) = 1.
Proof.
  intros H. rewrite rsum_nth, unit_row_length.
  rewrite (sumf_seq_single _ n k); auto.
  - rewrite unit_row_nth, Nat.eqb_refl; auto.
  - intros x Hx Hne. rewrite unit_row_nth by auto.
    destruct (Nat.eqb_spec x k); [contradiction|reflexivity].
Qed.

Lemma eye_length n : length (eye n) = n.
Proof. unfold eye. now rewrite map_length, seq_length. Qed.

Lemma eye_nth n k : (k < n)%nat -> nth k (eye n) [] = unit_row n k.
Proof.
  intros H. unfold eye. rewrite (map_nth_lt _ _ _ 0%nat) by (rewrite seq_length; lia).
  rewrite seq_nth by lia. reflexivity.
Qed.

Lemma dot_unit_row n k v : length v = n -> (k < n)%nat -> dot (unit_row n k) v = nth k v 0.
Proof.
  intros Hl Hk. rewrite dot_nth by (rewrite unit_row_length; auto).
  rewrite unit_row_length, (sumf_seq_single _ n k); auto.
  - rewrite unit_row_nth, Nat.eqb_refl by auto. lra.
  - intros x Hx Hne. rewrite unit_row_nth by auto.
    destruct (Nat.eqb_spec x k); [contradiction|lra].
Qed.

Lemma removelast_length {A} (l : list A) : length (removelast l) = pred (length l).
Proof. induction l as [|a [|b l] IH]; simpl in *; auto. Qed.

Lemma removelast_nth {A} (l : list A) k d :
  (k < pred (length l))%nat -> nth k (removelast l) d = nth k l d.
Proof.
  revert k; induction l as [|a [|b l] IH]; intros k H; simpl in *; try lia.
  destruct k; [reflexivity|]. apply (IH k). simpl. lia.
Qed.

Lemma last_nth {A} (l : list A) d : last l d = nth (pred (length l)) l d.
Proof.
  induction l as [|a [|b l] IH]; [reflexivity|reflexivity|].
  change (last (b :: l) d = nth (pred (length (b :: l))) (b :: l) d). exact IH.
Qed.

Lemma rsum_removelast l : l <> [] -> rsum l = rsum (removelast l) + last l 0.
Proof.
  intros H. rewrite (app_removelast_last 0 H) at 1. rewrite rsum_app. simpl. lra.
Qed.

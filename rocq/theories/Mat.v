(** Square real matrices as functions of two indices: products, inverse by
    Gauss elimination with row exchanges, Cholesky factorisation, positive
    definite matrices.  Only the entries of index below the dimension count. *)
From Coq Require Import Reals List Arith Bool Permutation Lia Lra.
From Verif Require Import Prelude.
Import ListNotations.
Local Open Scope R_scope.

Definition fv : Type := nat -> R.
Definition fm : Type := nat -> nat -> R.

Definition bsum (n : nat) (f : nat -> R) : R := sumf f (seq 0 n).

Definition mmul (n : nat) (A B : fm) : fm := fun i j => bsum n (fun k => A i k * B k j).
Definition mT (A : fm) : fm := fun i j => A j i.
Definition idm : fm := fun i j => if Nat.eq_dec i j then 1 else 0.
Definition mvm (n : nat) (A : fm) (x : fv) : fv := fun i => bsum n (fun k => A i k * x k).
Definition dotf (n : nat) (x y : fv) : R := bsum n (fun i => x i * y i).
Definition quad (n : nat) (A : fm) (x : fv) : R := dotf n x (mvm n A x).

Definition meq (n : nat) (A B : fm) : Prop := forall i j, (i < n)%nat -> (j < n)%nat -> A i j = B i j.
Definition msym (n : nat) (A : fm) : Prop := forall i j, (i < n)%nat -> (j < n)%nat -> A i j = A j i.
Definition nonzero (n : nat) (x : fv) : Prop := exists i, (i < n)%nat /\ x i <> 0.
Definition posdef (n : nat) (A : fm) : Prop := msym n A /\ forall x, nonzero n x -> 0 < quad n A x.
Definition is_inverse (n : nat) (A B : fm) : Prop := meq n (mmul n A B) idm /\ meq n (mmul n B A) idm.

(** Exchange of two rows (Gauss elimination) *)
Definition swap (p i : nat) : nat := if Nat.eq_dec i 0 then p else if Nat.eq_dec i p then 0%nat else i.

(** Block inversion from the Schur complement of the pivot A 0 0. *)
Definition schur (A : fm) : fm := fun i j => A (S i) (S j) - A (S i) 0%nat * A 0%nat (S j) / A 0%nat 0%nat.

Definition block_inv (m : nat) (A T : fm) : fm :=
  let a := A 0%nat 0%nat in
  let r j := bsum m (fun k => A 0%nat (S k) * T k j) in
  let c i := bsum m (fun l => T i l * A (S l) 0%nat) in
  fun i j => match i, j with
             | O, O => / a + bsum m (fun k => A 0%nat (S k) * c k) / (a * a)
             | O, S j => - r j / a
             | S i, O => - c i / a
             | S i, S j => T i j
             end.

Fixpoint minv (n : nat) (A : fm) : option fm :=
  match n with
  | O => Some A
  | S m =>
      match find (fun i => if Req_EM_T (A i 0%nat) 0 then false else true) (seq 0 (S m)) with
      | None => None
      | Some p =>
          let A' := fun i j => A (swap p i) j in
          match minv m (schur A') with
          | None => None
          | Some T => Some (fun i j => block_inv m A' T i (swap p j))
          end
      end
  end.

(** Cholesky factor, None when the matrix is not positive definite. *)
Fixpoint chol (n : nat) (A : fm) : option fm :=
  match n with
  | O => Some A
  | S m =>
      if Rlt_dec 0 (A 0%nat 0%nat) then
        let s := sqrt (A 0%nat 0%nat) in
        match chol m (fun i j => A (S i) (S j) - A (S i) 0%nat * A (S j) 0%nat / A 0%nat 0%nat) with
        | None => None
        | Some L =>
            Some (fun i j => match i, j with
                             | O, O => s
                             | O, S _ => 0
                             | S i, O => A (S i) 0%nat / s
                             | S i, S j => L i j
                             end)
        end
      else None
  end.

(** ** Sums *)
Lemma bsum_ext n f g : (forall i, (i < n)%nat -> f i = g i) -> bsum n f = bsum n g.
Proof. intros H. apply sumf_ext. intros i Hi. apply in_seq in Hi. apply H. lia. Qed.

Lemma bsum_S n f : bsum (S n) f = f 0%nat + bsum n (fun i => f (S i)).
Proof. unfold bsum. simpl. rewrite sumf_cons, <- seq_shift, sumf_map. reflexivity. Qed.

Lemma bsum_last n f : bsum (S n) f = bsum n f + f n.
Proof. unfold bsum. rewrite seq_S, sumf_app, sumf_cons, sumf_nil. simpl. lra. Qed.

Lemma bsum_0 f : bsum 0 f = 0.
Proof. reflexivity. Qed.

Lemma bsum_plus n f g : bsum n (fun i => f i + g i) = bsum n f + bsum n g.
Proof. apply sumf_plus. Qed.
Lemma bsum_minus n f g : bsum n (fun i => f i - g i) = bsum n f - bsum n g.
Proof. apply sumf_minus. Qed.
Lemma bsum_opp n f : bsum n (fun i => - f i) = - bsum n f.
Proof. apply sumf_opp. Qed.
Lemma bsum_scal n c f : bsum n (fun i => c * f i) = c * bsum n f.
Proof. apply sumf_scal_l. Qed.
Lemma bsum_scal_r n c f : bsum n (fun i => f i * c) = bsum n f * c.
Proof. apply sumf_scal_r. Qed.
Lemma bsum_swap n m (f : nat -> nat -> R) :
  bsum n (fun i => bsum m (fun j => f i j)) = bsum m (fun j => bsum n (fun i => f i j)).
Proof. apply sumf_swap. Qed.
Lemma bsum_zero n f : (forall i, (i < n)%nat -> f i = 0) -> bsum n f = 0.
Proof. intros H. apply sumf_zero. intros i Hi. apply in_seq in Hi. apply H. lia. Qed.
Lemma bsum_nonneg n f : (forall i, (i < n)%nat -> 0 <= f i) -> 0 <= bsum n f.
Proof. intros H. apply sumf_nonneg. intros i Hi. apply in_seq in Hi. apply H. lia. Qed.
Lemma bsum_le n f g : (forall i, (i < n)%nat -> f i <= g i) -> bsum n f <= bsum n g.
Proof. intros H. apply sumf_le. intros i Hi. apply in_seq in Hi. apply H. lia. Qed.
Lemma bsum_single n f k : (k < n)%nat -> (forall i, (i < n)%nat -> i <> k -> f i = 0) -> bsum n f = f k.
Proof. apply sumf_seq_single. Qed.
Lemma bsum_ge_term n f k : (forall i, (i < n)%nat -> 0 <= f i) -> (k < n)%nat -> f k <= bsum n f.
Proof.
  intros H Hk. apply sumf_ge_term; [|apply in_seq; lia]. intros i Hi. apply in_seq in Hi. apply H. lia.
Qed.
Lemma bsum_zero_inv n f : (forall i, (i < n)%nat -> 0 <= f i) -> bsum n f = 0 ->
  forall i, (i < n)%nat -> f i = 0.
Proof.
  intros H E i Hi. apply (sumf_zero_inv f (seq 0 n)); auto; [|apply in_seq; lia].
  intros k Hk. apply in_seq in Hk. apply H. lia.
Qed.

Lemma bsum_div n f c : bsum n (fun i => f i / c) = bsum n f / c.
Proof. apply bsum_scal_r. Qed.

Lemma bsum_idm_l n k f : (k < n)%nat -> bsum n (fun i => idm k i * f i) = f k.
Proof.
  intros Hk. rewrite (bsum_single n _ k Hk).
  - unfold idm. destruct (Nat.eq_dec k k); [ring|congruence].
  - intros i Hi Hne. unfold idm. destruct (Nat.eq_dec k i); [congruence|ring].
Qed.

Lemma bsum_idm_r n k f : (k < n)%nat -> bsum n (fun i => f i * idm i k) = f k.
Proof.
  intros Hk. rewrite (bsum_single n _ k Hk).
  - unfold idm. destruct (Nat.eq_dec k k); [ring|congruence].
  - intros i Hi Hne. unfold idm. destruct (Nat.eq_dec i k); [congruence|ring].
Qed.

Lemma swap_invol p i : swap p (swap p i) = i.
Proof.
  unfold swap. destruct (Nat.eq_dec i 0); [|destruct (Nat.eq_dec i p)];
  repeat (match goal with |- context [Nat.eq_dec ?a ?b] => destruct (Nat.eq_dec a b) end); lia.
Qed.

Lemma swap_lt n p i : (0 < n)%nat -> (p < n)%nat -> (i < n)%nat -> (swap p i < n)%nat.
Proof. unfold swap. intros. destruct (Nat.eq_dec i 0), (Nat.eq_dec i p); lia. Qed.

Lemma bsum_reindex n p f : (0 < n)%nat -> (p < n)%nat -> bsum n (fun i => f (swap p i)) = bsum n f.
Proof.
  intros H0 Hp. unfold bsum. rewrite <- (sumf_map (swap p) f). apply sumf_perm.
  apply NoDup_Permutation_bis.
  - apply FinFun.Injective_map_NoDup; [|apply seq_NoDup].
    intros x y E. rewrite <- (swap_invol p x), E. apply swap_invol.
  - rewrite map_length. auto.
  - intros y Hy. apply in_map_iff in Hy. destruct Hy as (x & <- & Hx). apply in_seq in Hx.
    apply in_seq. assert (X := swap_lt n p x H0 Hp). lia.
Qed.

(** ** Products *)
Lemma meq_refl n A : meq n A A.
Proof. intros i j _ _. reflexivity. Qed.
Lemma meq_sym n A B : meq n A B -> meq n B A.
Proof. intros H i j Hi Hj. symmetry. auto. Qed.
Lemma meq_trans n A B C : meq n A B -> meq n B C -> meq n A C.
Proof. intros H1 H2 i j Hi Hj. rewrite H1 by auto. auto. Qed.

Lemma mmul_ext n A A' B B' : meq n A A' -> meq n B B' -> meq n (mmul n A B) (mmul n A' B').
Proof. intros HA HB i j Hi Hj. apply bsum_ext. intros k Hk. rewrite HA, HB; auto. Qed.

Lemma mmul_assoc n A B C i j : mmul n (mmul n A B) C i j = mmul n A (mmul n B C) i j.
Proof.
  unfold mmul. transitivity (bsum n (fun k => bsum n (fun l => A i l * B l k * C k j))).
  - apply bsum_ext. intros k _. rewrite <- bsum_scal_r. reflexivity.
  - rewrite bsum_swap. apply bsum_ext. intros l _. rewrite <- bsum_scal. apply bsum_ext. intros; ring.
Qed.

Lemma mmul_idm_l n A : meq n (mmul n idm A) A.
Proof. intros i j Hi Hj. unfold mmul. now apply (bsum_idm_l n i (fun k => A k j)). Qed.

Lemma mmul_idm_r n A : meq n (mmul n A idm) A.
Proof. intros i j Hi Hj. unfold mmul. now apply (bsum_idm_r n j (fun k => A i k)). Qed.

Lemma inverse_unique n A B C : meq n (mmul n B A) idm -> meq n (mmul n A C) idm -> meq n B C.
Proof.
  intros HB HC. intros i j Hi Hj.
  rewrite <- (mmul_idm_r n B i j Hi Hj).
  rewrite <- (mmul_idm_l n C i j Hi Hj).
  transitivity (mmul n B (mmul n A C) i j).
  - apply mmul_ext; auto; [apply meq_refl|now apply meq_sym].
  - rewrite <- mmul_assoc. apply mmul_ext; auto. apply meq_refl.
Qed.

Lemma mT_mmul n A B i j : mT (mmul n A B) i j = mmul n (mT B) (mT A) i j.
Proof. unfold mT, mmul. apply bsum_ext. intros; ring. Qed.

Lemma mvm_mmul n A B x i : mvm n (mmul n A B) x i = mvm n A (mvm n B x) i.
Proof.
  unfold mvm, mmul. transitivity (bsum n (fun k => bsum n (fun l => A i l * B l k * x k))).
  - apply bsum_ext. intros k _. rewrite <- bsum_scal_r. reflexivity.
  - rewrite bsum_swap. apply bsum_ext. intros l _. rewrite <- bsum_scal. apply bsum_ext. intros; ring.
Qed.

Lemma mvm_idm n x i : (i < n)%nat -> mvm n idm x i = x i.
Proof. intros Hi. apply (bsum_idm_l n i x Hi). Qed.

Lemma mvm_ext n A A' x x' i : (i < n)%nat -> meq n A A' -> (forall k, (k < n)%nat -> x k = x' k) ->
  mvm n A x i = mvm n A' x' i.
Proof. intros Hi HA Hx. apply bsum_ext. intros k Hk. rewrite HA, Hx; auto. Qed.

Lemma dotf_ext n x x' y y' : (forall i, (i < n)%nat -> x i = x' i) -> (forall i, (i < n)%nat -> y i = y' i) ->
  dotf n x y = dotf n x' y'.
Proof. intros Hx Hy. apply bsum_ext. intros i Hi. rewrite Hx, Hy; auto. Qed.

Lemma quad_ext n A A' x x' : meq n A A' -> (forall k, (k < n)%nat -> x k = x' k) ->
  quad n A x = quad n A' x'.
Proof. intros HA Hx. apply dotf_ext; auto. intros i Hi. apply mvm_ext; auto. Qed.

Lemma dotf_mvm_T n A x y : dotf n x (mvm n A y) = dotf n (mvm n (mT A) x) y.
Proof.
  unfold dotf, mvm, mT.
  transitivity (bsum n (fun i => bsum n (fun j => x i * A i j * y j))).
  - apply bsum_ext. intros i _. rewrite <- bsum_scal. apply bsum_ext. intros; ring.
  - rewrite bsum_swap. apply bsum_ext. intros j _. rewrite <- bsum_scal_r. apply bsum_ext. intros; ring.
Qed.

Lemma dotf_comm n x y : dotf n x y = dotf n y x.
Proof. apply bsum_ext. intros; ring. Qed.

Lemma is_inverse_sym n A B : is_inverse n A B -> is_inverse n B A.
Proof. intros [H1 H2]. split; auto. Qed.

Lemma is_inverse_ext n A A' B B' : meq n A A' -> meq n B B' -> is_inverse n A B -> is_inverse n A' B'.
Proof.
  intros HA HB [H1 H2]. split.
  - eapply meq_trans; [|exact H1]. apply mmul_ext; now apply meq_sym.
  - eapply meq_trans; [|exact H2]. apply mmul_ext; now apply meq_sym.
Qed.

Lemma is_inverse_T n A B : is_inverse n A B -> is_inverse n (mT A) (mT B).
Proof.
  intros [H1 H2]. split; intros i j Hi Hj; rewrite <- mT_mmul; unfold mT.
  - rewrite H2 by auto. unfold idm. destruct (Nat.eq_dec j i), (Nat.eq_dec i j); congruence.
  - rewrite H1 by auto. unfold idm. destruct (Nat.eq_dec j i), (Nat.eq_dec i j); congruence.
Qed.

(** ** The inverse *)
Lemma block_inv_sound m A T : A 0%nat 0%nat <> 0 -> is_inverse m (schur A) T ->
  is_inverse (S m) A (block_inv m A T).
Proof.
  intros Ha [H1 H2]. set (a := A 0%nat 0%nat) in *.
  set (r := fun j => bsum m (fun k => A 0%nat (S k) * T k j)).
  set (c := fun i => bsum m (fun l => T i l * A (S l) 0%nat)).
  set (q := bsum m (fun k => A 0%nat (S k) * c k)).
  assert (Hq : q = bsum m (fun l => r l * A (S l) 0%nat)).
  { unfold q, r, c. transitivity (bsum m (fun k => bsum m (fun l => A 0%nat (S k) * T k l * A (S l) 0%nat))).
    - apply bsum_ext. intros k _. rewrite <- bsum_scal. apply bsum_ext. intros; ring.
    - rewrite bsum_swap. apply bsum_ext. intros l _. rewrite <- bsum_scal_r. reflexivity. }
  assert (Sc : forall i, (i < m)%nat -> bsum m (fun k => schur A i k * c k) = A (S i) 0%nat).
  { intros i Hi. unfold c.
    transitivity (bsum m (fun l => mmul m (schur A) T i l * A (S l) 0%nat)).
    - unfold mmul. transitivity (bsum m (fun k => bsum m (fun l => schur A i k * T k l * A (S l) 0%nat))).
      + apply bsum_ext. intros k _. rewrite <- bsum_scal. apply bsum_ext. intros; ring.
      + rewrite bsum_swap. apply bsum_ext. intros l _. rewrite <- bsum_scal_r. reflexivity.
    - rewrite <- (bsum_idm_l m i (fun l => A (S l) 0%nat) Hi). apply bsum_ext. intros l Hl. now rewrite H1. }
  assert (rS : forall j, (j < m)%nat -> bsum m (fun l => r l * schur A l j) = A 0%nat (S j)).
  { intros j Hj. unfold r.
    transitivity (bsum m (fun k => A 0%nat (S k) * mmul m T (schur A) k j)).
    - unfold mmul. transitivity (bsum m (fun l => bsum m (fun k => A 0%nat (S k) * T k l * schur A l j))).
      + apply bsum_ext. intros k _. rewrite <- bsum_scal_r. reflexivity.
      + rewrite bsum_swap. apply bsum_ext. intros l _. rewrite <- bsum_scal. apply bsum_ext. intros; ring.
    - rewrite <- (bsum_idm_r m j (fun k => A 0%nat (S k)) Hj). apply bsum_ext. intros l Hl. now rewrite H2. }
  assert (EA : forall i k, A (S i) (S k) = schur A i k + A (S i) 0%nat * A 0%nat (S k) / a).
  { intros i k. unfold schur. fold a. ring. }
  split; intros i j Hi Hj; unfold mmul; rewrite bsum_S; unfold block_inv; cbv zeta.
  - destruct i as [|i], j as [|j]; cbv iota; fold a.
    + change (bsum m (fun k => A 0%nat (S k) * bsum m (fun l => T k l * A (S l) 0%nat))) with q.
      rewrite (bsum_ext m _ (fun k => - / a * (A 0%nat (S k) * c k))) by (intros; unfold c; field; auto).
      rewrite bsum_scal. fold q a. unfold idm. simpl. field. auto.
    + change (bsum m (fun k => A 0%nat (S k) * T k j)) with (r j).
      fold a. unfold idm. simpl. field. auto.
    + change (bsum m (fun k => A 0%nat (S k) * bsum m (fun l => T k l * A (S l) 0%nat))) with q.
      rewrite (bsum_ext m _ (fun k => - / a * (schur A i k * c k) - A (S i) 0%nat / (a * a) * (A 0%nat (S k) * c k)))
        by (intros k Hk; rewrite EA; unfold c; field; auto).
      rewrite bsum_minus, !bsum_scal, Sc by lia. fold q. unfold idm. simpl. field. auto.
    + change (bsum m (fun k => A 0%nat (S k) * T k j)) with (r j).
      rewrite (bsum_ext m _ (fun k => schur A i k * T k j + A (S i) 0%nat / a * (A 0%nat (S k) * T k j)))
        by (intros k Hk; rewrite EA; field; auto).
      rewrite bsum_plus, bsum_scal. change (bsum m (fun k => A 0%nat (S k) * T k j)) with (r j).
      change (bsum m (fun k => schur A i k * T k j)) with (mmul m (schur A) T i j). rewrite H1 by lia.
      unfold idm. destruct (Nat.eq_dec i j), (Nat.eq_dec (S i) (S j)); try lia; field; auto.
  - destruct i as [|i], j as [|j]; cbv iota; fold a.
    + change (bsum m (fun k => A 0%nat (S k) * bsum m (fun l => T k l * A (S l) 0%nat))) with q.
      rewrite (bsum_ext m _ (fun k => - / a * (r k * A (S k) 0%nat))) by (intros; unfold r; field; auto).
      rewrite bsum_scal, <- Hq. fold a. unfold idm. simpl. field. auto.
    + change (bsum m (fun k => A 0%nat (S k) * bsum m (fun l => T k l * A (S l) 0%nat))) with q.
      rewrite (bsum_ext m _ (fun k => - / a * (r k * schur A k j) - A 0%nat (S j) / (a * a) * (r k * A (S k) 0%nat)))
        by (intros k Hk; rewrite EA; unfold r; field; auto).
      rewrite bsum_minus, !bsum_scal, rS, <- Hq by lia. unfold idm. simpl. field. auto.
    + change (bsum m (fun l => T i l * A (S l) 0%nat)) with (c i).
      fold a. unfold idm. simpl. field. auto.
    + change (bsum m (fun l => T i l * A (S l) 0%nat)) with (c i).
      rewrite (bsum_ext m _ (fun k => T i k * schur A k j + (T i k * A (S k) 0%nat) * (A 0%nat (S j) / a)))
        by (intros k Hk; rewrite EA; field; auto).
      rewrite bsum_plus, bsum_scal_r. change (bsum m (fun l => T i l * A (S l) 0%nat)) with (c i).
      change (bsum m (fun k => T i k * schur A k j)) with (mmul m T (schur A) i j). rewrite H2 by lia.
      unfold idm. destruct (Nat.eq_dec i j), (Nat.eq_dec (S i) (S j)); try lia; field; auto.
Qed.

Lemma find_pivot n A p :
  find (fun i => if Req_EM_T (A i 0%nat) 0 then false else true) (seq 0 n) = Some p ->
  (p < n)%nat /\ A p 0%nat <> 0.
Proof.
  intros H. apply find_some in H. destruct H as [H1 H2]. apply in_seq in H1. split; [lia|].
  destruct (Req_EM_T (A p 0%nat) 0); congruence.
Qed.

Lemma minv_sound n A B : minv n A = Some B -> is_inverse n A B.
Proof.
  revert A B. induction n as [|m IH]; intros A B H.
  - split; intros i j Hi; lia.
  - cbn [minv] in H.
    destruct (find _ (seq 0 (S m))) as [p|] eqn:F; [|discriminate].
    apply (find_pivot (S m) A p) in F. destruct F as [Hp Ha].
    set (A' := fun i j => A (swap p i) j) in *.
    destruct (minv m (schur A')) as [T|] eqn:ET; [|discriminate]. injection H as <-.
    assert (Ha' : A' 0%nat 0%nat <> 0) by (unfold A', swap; simpl; exact Ha).
    destruct (block_inv_sound m A' T Ha' (IH _ _ ET)) as [S1 S2]. split.
    + intros i j Hi Hj. unfold mmul.
      assert (X := S1 (swap p i) (swap p j) ltac:(apply swap_lt; lia) ltac:(apply swap_lt; lia)).
      unfold mmul, A' in X. rewrite swap_invol in X. etransitivity; [exact X|]. unfold idm.
      destruct (Nat.eq_dec (swap p i) (swap p j)) as [E|E], (Nat.eq_dec i j) as [E'|E']; auto; exfalso; apply E' || apply E; [|congruence].
      rewrite <- (swap_invol p i), E. apply swap_invol.
    + intros i j Hi Hj. unfold mmul.
      rewrite <- (bsum_reindex (S m) p) by lia.
      rewrite <- (S2 i j Hi Hj). unfold mmul, A'. apply bsum_ext. intros k Hk. now rewrite swap_invol.
Qed.

Definition trivial_kernel (n : nat) (A : fm) : Prop :=
  forall x, (forall i, (i < n)%nat -> mvm n A x i = 0) -> forall i, (i < n)%nat -> x i = 0.

Lemma minv_complete n A : trivial_kernel n A -> exists B, minv n A = Some B.
Proof.
  revert A. induction n as [|m IH]; intros A H; [now exists A|].
  cbn [minv]. destruct (find _ (seq 0 (S m))) as [p|] eqn:F.
  - assert (F' := F). apply (find_pivot (S m) A p) in F'. destruct F' as [Hp Ha].
    set (A' := fun i j => A (swap p i) j).
    assert (Ha' : A' 0%nat 0%nat <> 0) by (unfold A', swap; simpl; exact Ha).
    destruct (IH (schur A')) as [T ET].
    + intros x Hx i Hi.
      set (y := fun k => match k with O => - bsum m (fun l => A' 0%nat (S l) * x l) / A' 0%nat 0%nat | S l => x l end).
      assert (Y : forall k, (k < S m)%nat -> mvm (S m) A' y k = 0).
      { intros k Hk. unfold mvm. rewrite bsum_S. cbn [y]. destruct k as [|k].
        - field. auto.
        - assert (X := Hx k ltac:(lia)). unfold mvm in X.
          rewrite (bsum_ext m _ (fun l => A' (S k) (S l) * x l - A' (S k) 0%nat / A' 0%nat 0%nat * (A' 0%nat (S l) * x l))) in X
            by (intros l _; unfold schur; field; auto).
          rewrite bsum_minus, bsum_scal in X.
          transitivity (bsum m (fun l => A' (S k) (S l) * x l) - A' (S k) 0%nat / A' 0%nat 0%nat * bsum m (fun l => A' 0%nat (S l) * x l)); [field; auto|exact X]. }
      apply (H y) with (i := S i); [|lia]. intros k Hk.
      assert (Z := Y (swap p k) ltac:(apply swap_lt; lia)). unfold mvm, A' in Z. rewrite swap_invol in Z. exact Z.
    + rewrite ET. eauto.
  - exfalso.
    assert (Z : forall i, (i < S m)%nat -> A i 0%nat = 0).
    { intros i Hi. assert (X := find_none _ _ F i ltac:(apply in_seq; lia)). cbv beta in X.
      destruct (Req_EM_T (A i 0%nat) 0); [auto|discriminate]. }
    assert (Y := H (fun k => idm k 0%nat)). specialize (Y ltac:(intros i Hi; unfold mvm; rewrite (bsum_idm_r (S m) 0 (fun k => A i k)) by lia; apply Z; auto) 0%nat ltac:(lia)).
    unfold idm in Y. simpl in Y. lra.
Qed.

Lemma minv_spec n A B : is_inverse n A B -> exists B', minv n A = Some B' /\ meq n B' B.
Proof.
  intros [H1 H2]. destruct (minv_complete n A) as [B' E].
  - intros x Hx i Hi. rewrite <- (mvm_idm n x i Hi).
    rewrite <- (mvm_ext n (mmul n B A) idm x x i Hi H2 (fun _ _ => eq_refl)).
    rewrite mvm_mmul. apply bsum_zero. intros k Hk. rewrite Hx by auto. ring.
  - exists B'. split; auto. apply minv_sound in E. destruct E as [E1 E2].
    apply (inverse_unique n A); auto.
Qed.

Lemma posdef_kernel n A : posdef n A -> trivial_kernel n A.
Proof.
  intros [_ H] x Hx i Hi. destruct (Req_dec (x i) 0) as [E|E]; auto.
  assert (X := H x (ex_intro _ i (conj Hi E))).
  assert (Y : quad n A x = 0) by (apply bsum_zero; intros k Hk; rewrite Hx by auto; ring). lra.
Qed.

Lemma posdef_inverse n A : posdef n A -> exists B, minv n A = Some B /\ is_inverse n A B.
Proof.
  intros H. destruct (minv_complete n A (posdef_kernel n A H)) as [B E].
  exists B. split; auto. now apply minv_sound.
Qed.

Lemma inverse_msym n A B : msym n A -> is_inverse n A B -> msym n B.
Proof.
  intros HA HB. destruct (is_inverse_T n A B HB) as [T1 T2].
  assert (E : meq n B (mT B)).
  { apply (inverse_unique n A); [apply HB|]. eapply meq_trans; [|exact T1].
    apply mmul_ext; [|apply meq_refl]. intros i j Hi Hj. unfold mT. auto. }
  intros i j Hi Hj. rewrite E by auto. reflexivity.
Qed.

Lemma inverse_posdef n A B : posdef n A -> is_inverse n A B -> posdef n B.
Proof.
  intros [HA1 HA2] HB. split; [eapply inverse_msym; eauto|].
  intros x (i & Hi & Hx). set (y := mvm n B x).
  assert (EX : forall k, (k < n)%nat -> mvm n A y k = x k).
  { intros k Hk. unfold y. rewrite <- mvm_mmul.
    rewrite (mvm_ext n _ idm x x k Hk (proj1 HB) (fun _ _ => eq_refl)). now apply mvm_idm. }
  assert (NZ : nonzero n y).
  { destruct (Req_dec (bsum n (fun k => y k * y k)) 0) as [E|E].
    - exfalso. apply Hx. rewrite <- EX by auto. apply bsum_zero. intros k Hk.
      assert (Z := bsum_zero_inv n (fun k => y k * y k) ltac:(intros; apply Rle_0_sqr) E k Hk).
      apply Rmult_integral in Z. destruct Z as [Z|Z]; rewrite Z; ring.
    - destruct (existsb (fun k => if Req_EM_T (y k) 0 then false else true) (seq 0 n)) eqn:Ex.
      + apply existsb_exists in Ex. destruct Ex as (k & Hk & Hy). apply in_seq in Hk. exists k. split; [lia|].
        destruct (Req_EM_T (y k) 0); congruence.
      + exfalso. apply E. apply bsum_zero. intros k Hk.
        destruct (Req_EM_T (y k) 0) as [Z|Z]; [rewrite Z; ring|].
        assert (C : existsb (fun k => if Req_EM_T (y k) 0 then false else true) (seq 0 n) = true).
        { apply existsb_exists. exists k. split; [apply in_seq; lia|]. destruct (Req_EM_T (y k) 0); congruence. }
        congruence. }
  assert (Q := HA2 y NZ). unfold quad in *.
  rewrite (dotf_ext n x (mvm n A y) (mvm n B x) y); auto.
  - rewrite dotf_comm. exact Q.
  - intros k Hk. symmetry. auto.
Qed.

(** ** Cholesky *)
Definition lower (n : nat) (L : fm) : Prop := forall i j, (i < n)%nat -> (j < n)%nat -> (i < j)%nat -> L i j = 0.
Definition pos_diag (n : nat) (L : fm) : Prop := forall i, (i < n)%nat -> 0 < L i i.
Definition is_chol (n : nat) (A L : fm) : Prop :=
  lower n L /\ pos_diag n L /\ meq n (mmul n L (mT L)) A.

Lemma quad_S m A x : quad (S m) A x =
  A 0%nat 0%nat * (x 0%nat) ^ 2
  + x 0%nat * bsum m (fun k => A 0%nat (S k) * x (S k))
  + x 0%nat * bsum m (fun k => A (S k) 0%nat * x (S k))
  + quad m (fun i j => A (S i) (S j)) (fun k => x (S k)).
Proof.
  unfold quad, dotf, mvm. rewrite bsum_S. rewrite bsum_S.
  rewrite (bsum_ext m (fun i => x (S i) * _) (fun i => x 0%nat * (A (S i) 0%nat * x (S i))
     + x (S i) * bsum m (fun k => A (S i) (S k) * x (S k)))).
  - rewrite bsum_plus, bsum_scal. ring.
  - intros i _. rewrite bsum_S. ring.
Qed.

Lemma posdef_00 m A : posdef (S m) A -> 0 < A 0%nat 0%nat.
Proof.
  intros [_ H]. assert (X := H (fun k => idm k 0%nat)).
  assert (NZ : nonzero (S m) (fun k => idm k 0%nat)) by (exists 0%nat; split; [lia|unfold idm; simpl; lra]).
  specialize (X NZ). rewrite quad_S in X.
  rewrite (bsum_zero m (fun k => A 0%nat (S k) * _)) in X by (intros; unfold idm; simpl; ring).
  rewrite (bsum_zero m (fun k => A (S k) 0%nat * _)) in X by (intros; unfold idm; simpl; ring).
  replace (quad m _ _) with 0 in X; [unfold idm in X; simpl in X; lra|].
  symmetry. apply bsum_zero. intros; unfold idm; simpl; ring.
Qed.

Lemma posdef_schur m A : posdef (S m) A ->
  posdef m (fun i j => A (S i) (S j) - A (S i) 0%nat * A (S j) 0%nat / A 0%nat 0%nat).
Proof.
  intros HA. assert (Ha := posdef_00 m A HA). destruct HA as [HS HQ]. split.
  - intros i j Hi Hj. rewrite (HS (S i) (S j)) by lia. field. lra.
  - intros x (i & Hi & Hx).
    set (v := bsum m (fun k => A (S k) 0%nat * x k)).
    set (y := fun k => match k with O => - v / A 0%nat 0%nat | S l => x l end).
    assert (Q := HQ y (ex_intro _ (S i) (conj (proj1 (Nat.succ_lt_mono i m) Hi) Hx))).
    rewrite quad_S in Q. cbn [y] in Q.
    rewrite (bsum_ext m (fun k => A 0%nat (S k) * x k) (fun k => A (S k) 0%nat * x k)) in Q
      by (intros k Hk; rewrite (HS 0%nat (S k)) by lia; reflexivity).
    fold v in Q.
    assert (E : quad m (fun i j => A (S i) (S j) - A (S i) 0%nat * A (S j) 0%nat / A 0%nat 0%nat) x
       = quad m (fun i j => A (S i) (S j)) x - v * v / A 0%nat 0%nat).
    { unfold quad, dotf, mvm.
      rewrite (bsum_ext m _ (fun i => x i * bsum m (fun k => A (S i) (S k) * x k) - (A (S i) 0%nat * x i) * (v / A 0%nat 0%nat))).
      - rewrite bsum_minus, bsum_scal_r. fold v. field. lra.
      - intros k Hk. rewrite (bsum_ext m _ (fun l => A (S k) (S l) * x l - A (S k) 0%nat / A 0%nat 0%nat * (A (S l) 0%nat * x l)))
          by (intros; field; lra).
        rewrite bsum_minus, bsum_scal. fold v. field. lra. }
    change (fun k : nat => x k) with x in Q.
    rewrite E. replace (quad m (fun i j => A (S i) (S j)) x - v * v / A 0%nat 0%nat) with
      (A 0%nat 0%nat * (- v / A 0%nat 0%nat) ^ 2 + - v / A 0%nat 0%nat * v + - v / A 0%nat 0%nat * v + quad m (fun i j => A (S i) (S j)) x)
      by (field; lra). exact Q.
Qed.

Lemma chol_complete n A : posdef n A -> exists L, chol n A = Some L /\ is_chol n A L.
Proof.
  revert A. induction n as [|m IH]; intros A HA.
  - exists A. split; [reflexivity|]. repeat split; intros i; intros; lia.
  - cbn [chol]. assert (Ha := posdef_00 m A HA).
    destruct (Rlt_dec 0 (A 0%nat 0%nat)) as [_|]; [|lra].
    destruct (IH _ (posdef_schur m A HA)) as (L & EL & L1 & L2 & L3). rewrite EL.
    eexists. split; [reflexivity|].
    assert (Hs : 0 < sqrt (A 0%nat 0%nat)) by (now apply sqrt_lt_R0).
    assert (Hss : sqrt (A 0%nat 0%nat) * sqrt (A 0%nat 0%nat) = A 0%nat 0%nat) by (apply sqrt_sqrt; lra).
    set (s := sqrt (A 0%nat 0%nat)) in *.
    destruct HA as [HS _]. repeat split.
    + intros [|i] [|j] Hi Hj Hij; try lia; auto. apply L1; lia.
    + intros [|i] Hi; auto. apply L2. lia.
    + intros i j Hi Hj. unfold mmul, mT. rewrite bsum_S.
      destruct i as [|i], j as [|j].
      * rewrite bsum_zero by (intros; ring). lra.
      * rewrite bsum_zero by (intros; ring). rewrite (HS 0%nat (S j)) by lia. field. lra.
      * rewrite bsum_zero by (intros; ring). field. lra.
      * assert (X := L3 i j ltac:(lia) ltac:(lia)). unfold mmul, mT in X. rewrite X.
        rewrite <- Hss. field. lra.
Qed.

Lemma lower_kernel n L : lower n L -> pos_diag n L -> trivial_kernel n L.
Proof.
  intros HL HD x Hx i. induction i as [i IH] using lt_wf_ind. intros Hi.
  assert (E := Hx i Hi). unfold mvm in E. rewrite (bsum_single n _ i Hi) in E.
  - assert (P := HD i Hi). apply Rmult_integral in E. destruct E; lra.
  - intros k Hk Hne. destruct (Nat.lt_ge_cases k i).
    + rewrite IH by auto. ring.
    + rewrite HL by (auto; lia). ring.
Qed.

Lemma lower_inverse n L T : lower n L -> pos_diag n L -> is_inverse n L T ->
  lower n T /\ forall i, (i < n)%nat -> T i i = / L i i.
Proof.
  intros HL HD [HT _].
  assert (LT : lower n T).
  { intros i. induction i as [i IH] using lt_wf_ind. intros j Hi Hj Hij.
    assert (E := HT i j Hi Hj). unfold mmul in E. rewrite (bsum_single n _ i Hi) in E.
    - unfold idm in E. destruct (Nat.eq_dec i j); [lia|]. assert (P := HD i Hi).
      apply Rmult_integral in E. destruct E; lra.
    - intros k Hk Hne. destruct (Nat.lt_ge_cases k i).
      + rewrite (IH k) by lia. ring.
      + rewrite HL by (auto; lia). ring. }
  split; [exact LT|]. intros i Hi. assert (E := HT i i Hi Hi). unfold mmul in E.
  rewrite (bsum_single n _ i Hi) in E.
  - unfold idm in E. destruct (Nat.eq_dec i i); [|congruence]. assert (P := HD i Hi).
    apply (Rmult_eq_reg_l (L i i)); [|lra]. rewrite E. field. lra.
  - intros k Hk Hne. destruct (Nat.lt_ge_cases k i).
    + rewrite (LT k i) by auto. ring.
    + rewrite HL by (auto; lia). ring.
Qed.

(** Squared norm through a factor *)
Lemma quad_factor n L x : quad n (mmul n L (mT L)) x = bsum n (fun i => (mvm n (mT L) x i) ^ 2).
Proof.
  unfold quad. transitivity (dotf n x (mvm n L (mvm n (mT L) x))).
  - apply dotf_ext; auto. intros i Hi. apply mvm_mmul.
  - rewrite dotf_mvm_T. apply bsum_ext. intros; ring.
Qed.

Lemma nonzero_dec n x : nonzero n x \/ forall i, (i < n)%nat -> x i = 0.
Proof.
  induction n as [|n [(i & Hi & H)|IH]].
  - right. intros i Hi. lia.
  - left. exists i. split; [lia|auto].
  - destruct (Req_dec (x n) 0) as [E|E].
    + right. intros i Hi. destruct (Nat.eq_dec i n) as [->|]; auto. apply IH. lia.
    + left. exists n. split; [lia|auto].
Qed.

Lemma factor_posdef n L : trivial_kernel n (mT L) -> posdef n (mmul n L (mT L)).
Proof.
  intros H. split.
  - intros i j _ _. unfold mmul, mT. apply bsum_ext. intros; ring.
  - intros x NZ. rewrite quad_factor.
    assert (P : 0 <= bsum n (fun i => mvm n (mT L) x i ^ 2)) by (apply bsum_nonneg; intros; apply pow2_ge_0).
    destruct (Req_dec (bsum n (fun i => mvm n (mT L) x i ^ 2)) 0) as [E|E]; [|lra].
    exfalso. destruct NZ as (i & Hi & Hx). apply Hx. apply (H x); auto.
    intros k Hk. assert (Z := bsum_zero_inv n _ ltac:(intros; apply pow2_ge_0) E k Hk). cbv beta in Z.
    simpl in Z. rewrite Rmult_1_r in Z. apply Rmult_integral in Z. tauto.
Qed.

Lemma kernel_T n A : trivial_kernel n A -> trivial_kernel n (mT A).
Proof.
  intros H. destruct (minv_complete n A H) as [B E]. apply minv_sound in E.
  destruct (is_inverse_T n A B E) as [T1 T2].
  intros x Hx i Hi. rewrite <- (mvm_idm n x i Hi).
  rewrite <- (mvm_ext n (mmul n (mT B) (mT A)) idm x x i Hi T2 (fun _ _ => eq_refl)).
  rewrite mvm_mmul. apply bsum_zero. intros k Hk. rewrite Hx by auto. ring.
Qed.

Lemma is_chol_posdef n A L : is_chol n A L -> posdef n A.
Proof.
  intros (H1 & H2 & H3). assert (P := factor_posdef n L (kernel_T n L (lower_kernel n L H1 H2))).
  destruct P as [P1 P2]. split.
  - intros i j Hi Hj. rewrite <- !H3 by auto. auto.
  - intros x NZ. rewrite (quad_ext n A (mmul n L (mT L)) x x); auto. now apply meq_sym.
Qed.

(** The factor is unique. *)
Lemma chol_unique n A L L' : is_chol n A L -> is_chol n A L' -> meq n L L'.
Proof.
  intros (H1 & H2 & H3) (H1' & H2' & H3').
  destruct (minv_complete n L' (lower_kernel n L' H1' H2')) as [T ET]. apply minv_sound in ET.
  destruct (lower_inverse n L' T H1' H2' ET) as [LT DT].
  (* K = T L is lower triangular, with K K^T = I *)
  set (K := mmul n T L).
  assert (LK : lower n K).
  { intros i j Hi Hj Hij. unfold K, mmul. apply bsum_zero. intros k Hk.
    destruct (Nat.lt_ge_cases i k); [rewrite LT by auto; ring|rewrite (H1 k j) by lia; ring]. }
  assert (DK : forall i, (i < n)%nat -> K i i = T i i * L i i).
  { intros i Hi. unfold K, mmul. apply (bsum_single n (fun k => T i k * L k i)); auto. intros k Hk Hne.
    destruct (Nat.lt_ge_cases i k); [rewrite LT by auto; ring|rewrite (H1 k i) by lia; ring]. }
  assert (KK : meq n (mmul n K (mT K)) idm).
  { intros i j Hi Hj.
    transitivity (mmul n T (mmul n (mmul n L (mT L)) (mT T)) i j).
    - unfold K. rewrite mmul_assoc. apply mmul_ext; auto; [apply meq_refl|].
      intros a b Ha Hb. rewrite mmul_assoc. apply mmul_ext; auto; [apply meq_refl|].
      intros c d Hc Hd. apply mT_mmul.
    - transitivity (mmul n T (mmul n (mmul n L' (mT L')) (mT T)) i j).
      + apply mmul_ext; auto; [apply meq_refl|]. apply mmul_ext; [|apply meq_refl].
        eapply meq_trans; [exact H3|now apply meq_sym].
      + transitivity (mmul n (mmul n T L') (mmul n (mT L') (mT T)) i j).
        * rewrite mmul_assoc. apply mmul_ext; auto; [apply meq_refl|]. intros a b Ha Hb. apply mmul_assoc.
        * transitivity (mmul n idm idm i j); [|now apply mmul_idm_l].
          apply mmul_ext; auto; [apply ET|]. apply (is_inverse_T n L' T ET). }
  assert (KI : forall j, (j < n)%nat -> forall i, (i < n)%nat -> K i j = idm i j).
  { intros j. induction j as [j IH] using lt_wf_ind. intros Hj i Hi.
    destruct (Nat.lt_ge_cases i j) as [Hij|Hij].
    - rewrite LK by auto. unfold idm. destruct (Nat.eq_dec i j); [lia|auto].
    - assert (E := KK i j Hi Hj). unfold mmul, mT in E.
      (* sum over k <= j; terms k < j : K i k * K j k = idm i k * idm j k = 0 *)
      rewrite (bsum_single n _ j Hj) in E.
      + assert (Ejj := KK j j Hj Hj). unfold mmul, mT in Ejj. rewrite (bsum_single n _ j Hj) in Ejj.
        * assert (P : 0 < K j j).
          { rewrite DK, DT by auto. apply Rmult_lt_0_compat; [apply Rinv_0_lt_compat|]; auto. }
          unfold idm in Ejj at 1. destruct (Nat.eq_dec j j); [|congruence].
          assert (K j j = 1) by nra. rewrite H, Rmult_1_r in E. exact E.
        * intros k Hk Hne. destruct (Nat.lt_ge_cases k j).
          -- rewrite (IH k) by auto. unfold idm. destruct (Nat.eq_dec j k); [lia|ring].
          -- rewrite (LK j k) by (auto; lia). ring.
      + intros k Hk Hne. destruct (Nat.lt_ge_cases k j).
        * rewrite (IH k ltac:(auto) ltac:(auto) j) by auto. unfold idm. destruct (Nat.eq_dec j k); [lia|ring].
        * rewrite (LK j k) by (auto; lia). ring. }
  intros i j Hi Hj.
  transitivity (mmul n L' K i j).
  - unfold K. rewrite <- mmul_assoc. symmetry.
    transitivity (mmul n idm L i j); [|now apply mmul_idm_l].
    apply mmul_ext; auto; [apply ET|apply meq_refl].
  - transitivity (mmul n L' idm i j); [|now apply mmul_idm_r].
    apply mmul_ext; auto; [apply meq_refl|]. intros a b Ha Hb. now apply KI.
Qed.

(** Determinants of positive definite matrices as products of pivots, from
    either end, and of inverses. *)
From Coq Require Import Reals List Arith Bool Lia Lra.
From Verif Require Import Prelude Vec Mat.
Import ListNotations.
Local Open Scope R_scope.

Fixpoint pdet (n : nat) (A : fm) : R :=
  match n with O => 1 | S m => A 0%nat 0%nat * pdet m (schur A) end.

Definition schur_last (m : nat) (A : fm) : fm := fun i j => A i j - A i m * A m j / A m m.

Fixpoint pdet_last (n : nat) (A : fm) : R :=
  match n with O => 1 | S m => A m m * pdet_last m (schur_last m A) end.

Lemma meq_schur m A B : meq (S m) A B -> meq m (schur A) (schur B).
Proof. intros H i j Hi Hj. unfold schur. rewrite !H by lia. reflexivity. Qed.

Lemma meq_schur_last m A B : meq (S m) A B -> meq m (schur_last m A) (schur_last m B).
Proof. intros H i j Hi Hj. unfold schur_last. rewrite !H by lia. reflexivity. Qed.

Lemma pdet_ext n A B : meq n A B -> pdet n A = pdet n B.
Proof.
  revert A B. induction n as [|m IH]; intros A B H; [reflexivity|]. cbn [pdet].
  rewrite (H 0%nat 0%nat) by lia. f_equal. apply IH. now apply meq_schur.
Qed.

Lemma pdet_last_ext n A B : meq n A B -> pdet_last n A = pdet_last n B.
Proof.
  revert A B. induction n as [|m IH]; intros A B H; [reflexivity|]. cbn [pdet_last].
  rewrite (H m m) by lia. f_equal. apply IH. now apply meq_schur_last.
Qed.

Lemma posdef_ext n A B : meq n A B -> posdef n A -> posdef n B.
Proof.
  intros H (S1 & S2). split.
  - intros i j Hi Hj. rewrite <- !H by auto. auto.
  - intros x Hx. rewrite <- (quad_ext n A B x x H); auto.
Qed.

Lemma posdef_schur' m A : posdef (S m) A -> posdef m (schur A).
Proof.
  intros H. apply (posdef_ext m (fun i j => A (S i) (S j) - A (S i) 0%nat * A (S j) 0%nat / A 0%nat 0%nat)).
  - intros i j Hi Hj. unfold schur. destruct H as (HS & _). rewrite (HS (S j) 0%nat) by lia. reflexivity.
  - now apply posdef_schur.
Qed.

(** Reversal of the order of the indices *)
Definition rev_m (n : nat) (A : fm) : fm := fun i j => A (n - 1 - i)%nat (n - 1 - j)%nat.

Lemma bsum_rev n f : bsum n (fun i => f (n - 1 - i)%nat) = bsum n f.
Proof.
  induction n as [|n IH]; [reflexivity|]. rewrite bsum_S. rewrite bsum_last, <- IH.
  replace (S n - 1 - 0)%nat with n by lia. rewrite Rplus_comm. f_equal.
  apply bsum_ext. intros i Hi. f_equal. lia.
Qed.

Lemma quad_rev n A x : quad n (rev_m n A) x = quad n A (fun i => x (n - 1 - i)%nat).
Proof.
  unfold quad, dotf, mvm.
  rewrite <- (bsum_rev n (fun i => x i * _)).
  apply bsum_ext. intros i Hi. f_equal. rewrite <- (bsum_rev n).
  apply bsum_ext. intros j Hj. unfold rev_m.
  replace (n - 1 - (n - 1 - i))%nat with i by lia. replace (n - 1 - (n - 1 - j))%nat with j by lia. reflexivity.
Qed.

Lemma posdef_rev n A : posdef n A -> posdef n (rev_m n A).
Proof.
  intros (S1 & S2). split.
  - intros i j Hi Hj. unfold rev_m. apply S1; lia.
  - intros x (i & Hi & Hx). rewrite quad_rev. apply S2. exists (n - 1 - i)%nat. split; [lia|].
    replace (n - 1 - (n - 1 - i))%nat with i by lia. auto.
Qed.

Lemma rev_rev n A : meq n (rev_m n (rev_m n A)) A.
Proof.
  intros i j Hi Hj. unfold rev_m. f_equal; lia.
Qed.

Lemma posdef_schur_last m A : posdef (S m) A -> posdef m (schur_last m A).
Proof.
  intros H. apply (posdef_ext m (rev_m m (schur (rev_m (S m) A)))).
  - intros i j Hi Hj. unfold schur_last, schur, rev_m.
    replace (S m - 1 - S (m - 1 - i))%nat with i by lia.
    replace (S m - 1 - S (m - 1 - j))%nat with j by lia.
    replace (S m - 1 - 0)%nat with m by lia. reflexivity.
  - apply posdef_rev, posdef_schur', posdef_rev, H.
Qed.

Lemma posdef_last m A : posdef (S m) A -> 0 < A m m.
Proof.
  intros H. apply posdef_rev, posdef_00 in H. unfold rev_m in H.
  replace (S m - 1 - 0)%nat with m in H by lia. exact H.
Qed.

(** Elimination from either end gives the same product. *)
Lemma pdet_both n : forall A, posdef n A -> pdet n A = pdet_last n A.
Proof.
  induction n as [n IH] using lt_wf_ind. intros A HA. destruct n as [|[|n]].
  - reflexivity.
  - reflexivity.
  - assert (H0 := posdef_00 _ A HA). assert (Hn := posdef_last _ A HA).
    assert (P0 := posdef_schur' _ A HA). assert (Pn := posdef_schur_last _ A HA).
    assert (H0n := posdef_last _ _ P0). assert (Hn0 := posdef_00 _ _ Pn).
    cbn [pdet pdet_last] in *.
    change (schur A 0%nat 0%nat * pdet n (schur (schur A))) with (pdet (S n) (schur A)).
    change (schur_last (S n) A n n * pdet_last n (schur_last n (schur_last (S n) A))) with (pdet_last (S n) (schur_last (S n) A)).
    rewrite (IH (S n)) by (auto; lia). rewrite <- (IH (S n) ltac:(lia) (schur_last (S n) A)) by auto.
    cbn [pdet pdet_last].
    assert (Pnn := posdef_schur_last _ _ P0).
    rewrite <- (IH n ltac:(lia) (schur_last n (schur A))) by auto.
    rewrite (pdet_ext n (schur_last n (schur A)) (schur (schur_last (S n) A))).
    + rewrite <- !Rmult_assoc. f_equal. unfold schur, schur_last. field. lra.
    + intros i j Hi Hj.
      assert (D : A 0%nat 0%nat * A (S n) (S n) - A 0%nat (S n) * A (S n) 0%nat <> 0).
      { intros E. unfold schur in H0n. apply Rlt_not_eq in H0n. apply H0n.
        replace (A (S n) (S n) - A (S n) 0%nat * A 0%nat (S n) / A 0%nat 0%nat) with
          ((A 0%nat 0%nat * A (S n) (S n) - A 0%nat (S n) * A (S n) 0%nat) / A 0%nat 0%nat) by (field; lra).
        rewrite E. field. lra. }
      unfold schur, schur_last. field. repeat split; try lra.
Qed.

(** Triangular factors *)
Fixpoint dprod (n : nat) (L : fm) : R := match n with O => 1 | S m => dprod m L * (L m m) ^ 2 end.

Lemma dprod_first n L : dprod (S n) L = (L 0%nat 0%nat) ^ 2 * dprod n (fun i j => L (S i) (S j)).
Proof.
  induction n as [|n IH]; [simpl; ring|]. cbn [dprod] in *. rewrite IH. ring.
Qed.

Lemma dprod_ext n L L' : (forall i, (i < n)%nat -> L i i = L' i i) -> dprod n L = dprod n L'.
Proof.
  induction n as [|n IH]; intros H; [reflexivity|]. cbn [dprod]. rewrite H by lia. rewrite IH; auto.
Qed.

Lemma dprod_pos n L : pos_diag n L -> 0 < dprod n L.
Proof.
  induction n as [|n IH]; intros H; [simpl; lra|]. cbn [dprod]. apply Rmult_lt_0_compat.
  - apply IH. intros i Hi. apply H. lia.
  - apply pow_lt. apply H. lia.
Qed.

Lemma ln_dprod n L : pos_diag n L -> ln (dprod n L) = 2 * bsum n (fun i => ln (L i i)).
Proof.
  induction n as [|n IH]; intros H; [rewrite bsum_0; simpl; rewrite ln_1; ring|].
  cbn [dprod]. rewrite bsum_last.
  assert (P : 0 < L n n) by (apply H; lia).
  assert (H' : pos_diag n L) by (intros i Hi; apply H; lia).
  rewrite ln_mult; [|now apply dprod_pos|now apply pow_lt].
  rewrite IH by auto. replace (L n n ^ 2) with (L n n * L n n) by ring. rewrite ln_mult by auto. ring.
Qed.

Lemma chol_schur m A L : is_chol (S m) A L ->
  A 0%nat 0%nat = L 0%nat 0%nat ^ 2 /\ is_chol m (schur A) (fun i j => L (S i) (S j)).
Proof.
  intros (H1 & H2 & H3).
  assert (C : forall i j, (i < S m)%nat -> (j < S m)%nat ->
    A i j = L i 0%nat * L j 0%nat + bsum m (fun k => L i (S k) * L j (S k))).
  { intros i j Hi Hj. rewrite <- H3 by auto. unfold mmul, mT. now rewrite bsum_S. }
  assert (P : 0 < L 0%nat 0%nat) by (apply H2; lia).
  assert (Z : forall k, (k < m)%nat -> L 0%nat (S k) = 0) by (intros k Hk; apply H1; lia).
  assert (E0 : A 0%nat 0%nat = L 0%nat 0%nat ^ 2).
  { rewrite C by lia. rewrite bsum_zero; [ring|]. intros i Hi. rewrite Z by auto. ring. }
  split; [exact E0|]. split; [|split].
  - intros i j Hi Hj Hij. apply H1; lia.
  - intros i Hi. apply H2. lia.
  - intros i j Hi Hj. unfold schur. rewrite E0, (C (S i) (S j)), (C (S i) 0%nat), (C 0%nat (S j)) by lia.
    rewrite (bsum_zero m (fun k => L (S i) (S k) * L 0%nat (S k))) by (intros k Hk; rewrite Z by auto; ring).
    rewrite (bsum_zero m (fun k => L 0%nat (S k) * L (S j) (S k))) by (intros k Hk; rewrite Z by auto; ring).
    unfold mmul, mT. field. lra.
Qed.

Lemma pdet_chol n A L : is_chol n A L -> pdet n A = dprod n L.
Proof.
  revert A L. induction n as [|m IH]; intros A L H; [reflexivity|].
  destruct (chol_schur m A L H) as (E0 & HS). rewrite dprod_first. cbn [pdet]. rewrite E0. f_equal.
  now apply IH.
Qed.

Definition upper (n : nat) (U : fm) : Prop := forall i j, (i < n)%nat -> (j < n)%nat -> (j < i)%nat -> U i j = 0.
Definition is_uchol (n : nat) (A U : fm) : Prop :=
  upper n U /\ pos_diag n U /\ meq n (mmul n U (mT U)) A.

Lemma uchol_schur_last m A U : is_uchol (S m) A U ->
  A m m = U m m ^ 2 /\ is_uchol m (schur_last m A) U.
Proof.
  intros (H1 & H2 & H3).
  assert (C : forall i j, (i < S m)%nat -> (j < S m)%nat ->
    A i j = bsum m (fun k => U i k * U j k) + U i m * U j m).
  { intros i j Hi Hj. rewrite <- H3 by auto. unfold mmul, mT. now rewrite bsum_last. }
  assert (P : 0 < U m m) by (apply H2; lia).
  assert (Z : forall k, (k < m)%nat -> U m k = 0) by (intros k Hk; apply H1; lia).
  assert (E0 : A m m = U m m ^ 2).
  { rewrite C by lia. rewrite bsum_zero; [ring|]. intros i Hi. rewrite Z by auto. ring. }
  split; [exact E0|]. split; [|split].
  - intros i j Hi Hj Hij. apply H1; lia.
  - intros i Hi. apply H2. lia.
  - intros i j Hi Hj. unfold schur_last. rewrite E0, (C i j), (C i m), (C m j) by lia.
    rewrite (bsum_zero m (fun k => U i k * U m k)) by (intros k Hk; rewrite Z by auto; ring).
    rewrite (bsum_zero m (fun k => U m k * U j k)) by (intros k Hk; rewrite Z by auto; ring).
    unfold mmul, mT. field. lra.
Qed.

Lemma pdet_last_uchol n A U : is_uchol n A U -> pdet_last n A = dprod n U.
Proof.
  revert A. induction n as [|m IH]; intros A H; [reflexivity|].
  destruct (uchol_schur_last m A U H) as (E0 & HS). cbn [pdet_last dprod]. rewrite E0, (IH _ HS). ring.
Qed.

(** Inverse of a factored matrix *)
Lemma chol_inverse_factor n A L T P : is_chol n A L -> is_inverse n L T -> is_inverse n A P ->
  is_uchol n P (mT T).
Proof.
  intros (C1 & C2 & C3) IL IA. destruct (lower_inverse n L T C1 C2 IL) as (TL & TD).
  assert (IT := is_inverse_T n L T IL). split; [|split].
  - intros i j Hi Hj Hij. unfold mT. apply TL; auto.
  - intros i Hi. unfold mT. rewrite TD by auto. apply Rinv_0_lt_compat. auto.
  - change (mT (mT T)) with T. apply meq_sym.
    assert (I : meq n (mmul n A (mmul n (mT T) T)) idm).
    { eapply meq_trans; [apply (mmul_ext n A (mmul n L (mT L))); [apply meq_sym; exact C3|apply meq_refl]|].
      intros i j Hi Hj. rewrite mmul_assoc. destruct IL as (I1 & I2), IT as (J1 & J2).
      transitivity (mmul n L T i j); [|apply I1; auto].
      apply mmul_ext; auto using meq_refl. intros a b Ha Hb. rewrite <- mmul_assoc.
      transitivity (mmul n idm T a b); [apply mmul_ext; auto using meq_refl|now apply mmul_idm_l]. }
    eapply inverse_unique; [apply IA|exact I].
Qed.

(** The log-determinant of the inverse is the opposite. *)
Lemma logdet_inverse n A P L K : is_chol n A L -> is_chol n P K -> is_inverse n A P ->
  bsum n (fun i => ln (K i i)) = - bsum n (fun i => ln (L i i)).
Proof.
  intros HL HK HI.
  destruct (minv_complete n L (lower_kernel n L (proj1 HL) (proj1 (proj2 HL)))) as (T & ET). apply minv_sound in ET.
  assert (HU := chol_inverse_factor n A L T P HL ET HI).
  assert (PP := is_chol_posdef n P K HK).
  assert (E : dprod n K = dprod n (mT T)).
  { rewrite <- (pdet_chol n P K HK), (pdet_both n P PP). now apply pdet_last_uchol. }
  apply (f_equal ln) in E. rewrite !ln_dprod in E by (apply HK || apply HU).
  assert (D : bsum n (fun i => ln (mT T i i)) = - bsum n (fun i => ln (L i i))).
  { rewrite <- bsum_opp. apply bsum_ext. intros i Hi. unfold mT.
    destruct HL as (C1 & C2 & C3). destruct (lower_inverse n L T C1 C2 ET) as (_ & TD).
    rewrite TD by auto. apply ln_Rinv. auto. }
  rewrite <- D. lra.
Qed.

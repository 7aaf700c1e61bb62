(** The logarithm of the Gamma function and its derivative, as computed by
    torch.lgamma and torch.digamma on positive reals, defined by Gauss' limits

      ln Gamma(x) = lim_N  ln N! + x ln N - sum_{k=0}^{N} ln (x + k)
      psi(x)      = lim_N  ln N - sum_{k=0}^{N} 1 / (x + k),

    and the convexity inequalities behind the non-negativity of the KL
    divergences. *)
From Coq Require Import List Arith Reals Lra Lia Factorial.
From Coquelicot Require Import Coquelicot.
From Verif Require Import Prelude Gibbs.
Import ListNotations.
Local Open Scope R_scope.

(** Sum of the n first terms. *)
Definition sn (f : nat -> R) (n : nat) : R := sumf f (seq 0 n).

Lemma sn_S f n : sn f (S n) = sn f n + f n.
Proof.
  unfold sn. rewrite seq_S, sumf_app. cbn [plus]. unfold sumf at 2. simpl. lra.
Qed.

Lemma sn_0 f : sn f 0 = 0.
Proof. reflexivity. Qed.

Lemma sn_ext f g n : (forall k, (k < n)%nat -> f k = g k) -> sn f n = sn g n.
Proof. intros H. apply sumf_ext. intros k Hk. apply in_seq in Hk. apply H. lia. Qed.

Lemma sn_plus f g n : sn (fun k => f k + g k) n = sn f n + sn g n.
Proof. apply sumf_plus. Qed.

Lemma sn_scal c f n : sn (fun k => c * f k) n = c * sn f n.
Proof. apply sumf_scal_l. Qed.

Lemma sn_first f n : sn f (S n) = f 0%nat + sn (fun k => f (S k)) n.
Proof.
  unfold sn. cbn [seq]. rewrite sumf_cons. f_equal. rewrite <- seq_shift, sumf_map. reflexivity.
Qed.

(** ** Definitions *)
Definition lgamma_seq (x : R) (n : nat) : R :=
  ln (INR (fact (S n))) + x * ln (INR (S n)) - sn (fun k => ln (x + INR k)) (S (S n)).

Definition digamma_seq (x : R) (n : nat) : R :=
  ln (INR (S n)) - sn (fun k => / (x + INR k)) (S (S n)).

Definition lgamma (x : R) : R := real (Lim_seq (lgamma_seq x)).
Definition digamma (x : R) : R := real (Lim_seq (digamma_seq x)).

(** ** Existence of the limits *)
Lemma INR_S_pos n : 0 < INR (S n).
Proof. apply lt_0_INR. lia. Qed.

Lemma ln_succ_lower N : 0 < N -> / (N + 1) <= ln (N + 1) - ln N.
Proof.
  intros H. assert (E := ln_le_sub1 (N / (N + 1)) ltac:(apply Rdiv_lt_0_compat; lra)).
  rewrite ln_div in E by lra. replace (N / (N + 1) - 1) with (- / (N + 1)) in E by (field; lra). lra.
Qed.

Lemma ln_succ_upper N : 0 < N -> ln (N + 1) - ln N <= / N.
Proof.
  intros H. assert (E := ln_le_sub1 ((N + 1) / N) ltac:(apply Rdiv_lt_0_compat; lra)).
  rewrite ln_div in E by lra. replace ((N + 1) / N - 1) with (/ N) in E by (field; lra). lra.
Qed.

Lemma fact_S_INR n : INR (fact (S n)) = (INR n + 1) * INR (fact n).
Proof.
  change (fact (S n)) with ((S n) * fact n)%nat. rewrite mult_INR, S_INR. reflexivity.
Qed.

Lemma lgamma_step x n : 0 < x ->
  lgamma_seq x (S n) - lgamma_seq x n =
  x * (ln (INR (S n) + 1) - ln (INR (S n)))
  - (ln (x + (INR (S n) + 1)) - ln (INR (S n) + 1)).
Proof.
  intros Hx. unfold lgamma_seq. rewrite (sn_S _ (S (S n))), (fact_S_INR (S n)).
  assert (H := INR_S_pos n). rewrite ln_mult.
  - rewrite (S_INR (S n)). ring.
  - lra.
  - apply lt_0_INR. apply lt_O_fact.
Qed.

Lemma lgamma_step_nonneg x n : 0 < x -> lgamma_seq x n <= lgamma_seq x (S n).
Proof.
  intros Hx. assert (E := lgamma_step x n Hx). assert (H := INR_S_pos n).
  set (N := INR (S n)) in *.
  assert (L := ln_succ_lower N H).
  assert (U := ln_le_sub1 ((x + (N + 1)) / (N + 1)) ltac:(apply Rdiv_lt_0_compat; lra)).
  rewrite ln_div in U by lra.
  replace ((x + (N + 1)) / (N + 1) - 1) with (x * / (N + 1)) in U by (field; lra).
  assert (x * / (N + 1) <= x * (ln (N + 1) - ln N)) by (apply Rmult_le_compat_l; lra).
  lra.
Qed.

Lemma lgamma_step_upper x n : 0 < x ->
  lgamma_seq x (S n) - lgamma_seq x n <= x * (x + 1) * (/ INR (S n) - / INR (S (S n))).
Proof.
  intros Hx. rewrite lgamma_step by auto. assert (H := INR_S_pos n).
  rewrite (S_INR (S n)). set (N := INR (S n)) in *.
  assert (U := ln_succ_upper N H).
  assert (L := ln_le_sub1 ((N + 1) / (x + (N + 1))) ltac:(apply Rdiv_lt_0_compat; lra)).
  rewrite ln_div in L by lra.
  replace ((N + 1) / (x + (N + 1)) - 1) with (- (x * / (x + (N + 1)))) in L by (field; lra).
  assert (x * (ln (N + 1) - ln N) <= x * / N) by (apply Rmult_le_compat_l; lra).
  apply Rle_trans with (x * / N - x * / (x + (N + 1))); [lra|].
  replace (x * / N - x * / (x + (N + 1))) with (x * (x + 1) * (/ (N * (x + (N + 1))))) by (field; lra).
  replace (/ N - / (N + 1)) with (/ (N * (N + 1))) by (field; lra).
  apply Rmult_le_compat_l; [nra|]. apply Rinv_le_contravar; [nra|].
  apply Rmult_le_compat_l; lra.
Qed.

Lemma lgamma_bounded x n : 0 < x ->
  lgamma_seq x n <= lgamma_seq x 0 + x * (x + 1).
Proof.
  intros Hx.
  assert (H : lgamma_seq x n <= lgamma_seq x 0 + x * (x + 1) * (1 - / INR (S n))).
  { induction n as [|n IH].
    - replace (INR 1) with 1 by reflexivity. rewrite Rinv_1. lra.
    - assert (U := lgamma_step_upper x n Hx). lra. }
  assert (0 < / INR (S n)) by (apply Rinv_0_lt_compat, INR_S_pos). nra.
Qed.

Lemma lgamma_lim x : 0 < x -> is_lim_seq (lgamma_seq x) (lgamma x).
Proof.
  intros Hx. apply Lim_seq_correct'.
  apply ex_finite_lim_seq_incr with (M := lgamma_seq x 0 + x * (x + 1)).
  - intros n. now apply lgamma_step_nonneg.
  - intros n. now apply lgamma_bounded.
Qed.

Lemma digamma_step x n :
  digamma_seq x (S n) - digamma_seq x n =
  ln (INR (S n) + 1) - ln (INR (S n)) - / (x + (INR (S n) + 1)).
Proof.
  unfold digamma_seq. rewrite (sn_S _ (S (S n))), (S_INR (S n)). ring.
Qed.

Lemma digamma_step_nonneg x n : 0 < x -> digamma_seq x n <= digamma_seq x (S n).
Proof.
  intros Hx. assert (E := digamma_step x n). assert (H := INR_S_pos n).
  set (N := INR (S n)) in *. assert (L := ln_succ_lower N H).
  assert (/ (x + (N + 1)) <= / (N + 1)) by (apply Rinv_le_contravar; lra). lra.
Qed.

Lemma digamma_step_upper x n : 0 < x ->
  digamma_seq x (S n) - digamma_seq x n <= (x + 1) * (/ INR (S n) - / INR (S (S n))).
Proof.
  intros Hx. rewrite digamma_step. assert (H := INR_S_pos n).
  rewrite (S_INR (S n)). set (N := INR (S n)) in *.
  assert (U := ln_succ_upper N H).
  apply Rle_trans with (/ N - / (x + (N + 1))); [lra|].
  replace (/ N - / (x + (N + 1))) with ((x + 1) * (/ (N * (x + (N + 1))))) by (field; lra).
  replace (/ N - / (N + 1)) with (/ (N * (N + 1))) by (field; lra).
  apply Rmult_le_compat_l; [nra|]. apply Rinv_le_contravar; [nra|].
  apply Rmult_le_compat_l; lra.
Qed.

Lemma digamma_lim x : 0 < x -> is_lim_seq (digamma_seq x) (digamma x).
Proof.
  intros Hx. apply Lim_seq_correct'.
  apply ex_finite_lim_seq_incr with (M := digamma_seq x 0 + (x + 1)).
  - intros n. now apply digamma_step_nonneg.
  - intros n.
    assert (H : digamma_seq x n <= digamma_seq x 0 + (x + 1) * (1 - / INR (S n))).
    { induction n as [|n IH].
      - replace (INR 1) with 1 by reflexivity. rewrite Rinv_1. lra.
      - assert (U := digamma_step_upper x n Hx). lra. }
    assert (0 < / INR (S n)) by (apply Rinv_0_lt_compat, INR_S_pos). nra.
Qed.

(** ** Small limits *)
Lemma lim_inv_shift c a : 0 < a -> is_lim_seq (fun n => c / (a + INR (S (S n)))) 0.
Proof.
  intros Ha.
  assert (H0 : is_lim_seq (fun n => / INR (S n)) 0).
  { apply (is_lim_seq_incr_1 (fun n => / INR n)).
    replace (Finite 0) with (Rbar_inv p_infty) by reflexivity.
    apply is_lim_seq_inv; [apply is_lim_seq_INR|discriminate]. }
  assert (H1 : is_lim_seq (fun n => Rabs c * / INR (S n)) 0).
  { replace (Finite 0) with (Finite (Rabs c * 0)) by (f_equal; ring).
    apply (is_lim_seq_scal_l (fun n => / INR (S n)) (Rabs c) 0 H0). }
  apply is_lim_seq_abs_0. 
  apply is_lim_seq_le_le with (u := fun _ => 0) (w := fun n => Rabs c * / INR (S n)).
  - intros n. split; [apply Rabs_pos|].
    unfold Rdiv. rewrite Rabs_mult. apply Rmult_le_compat_l; [apply Rabs_pos|].
    assert (H := INR_S_pos n). rewrite (S_INR (S n)).
    rewrite Rabs_right by (left; apply Rinv_0_lt_compat; lra).
    apply Rinv_le_contravar; lra.
  - apply is_lim_seq_const.
  - exact H1.
Qed.

Lemma lim_ge (u : nat -> R) (v : nat -> R) (l m : R) :
  (forall n, v n <= u n) -> is_lim_seq u l -> is_lim_seq v m -> m <= l.
Proof. intros H Hu Hv. exact (is_lim_seq_le v u m l H Hv Hu). Qed.

(** ** The convexity of lgamma, sharpened *)

(** Bregman divergence of y ln y - y. *)
Definition bphi (y' y : R) : R := y' * ln (y' / y) - y' + y.

Lemma bphi_nonneg y' y : 0 < y' -> 0 < y -> 0 <= bphi y' y.
Proof.
  intros H' H. unfold bphi. assert (G := gibbs_term y' y ltac:(lra) H).
  rewrite ln_div by auto. lra.
Qed.

Lemma bphi_upper y' y : 0 < y' -> 0 < y -> bphi y' y <= (y' - y) * (y' - y) / y.
Proof.
  intros H' H. unfold bphi.
  assert (L := ln_le_sub1 (y' / y) ltac:(now apply Rdiv_lt_0_compat)).
  apply Rmult_le_compat_l with (r := y') in L; [|lra].
  replace (y' * (y' / y - 1) ) with ((y' - y) * (y' - y) / y + (y' - y)) in L by (field; lra). lra.
Qed.

Lemma bphi_shift y' y : 0 < y' -> 0 < y ->
  bphi y' y - bphi (y' + 1) (y + 1) <= - ln (y' / y) + (y' - y) / y.
Proof.
  intros H' H. unfold bphi.
  assert (L := ln_le_sub1 ((y' / y) / ((y' + 1) / (y + 1)))
                 ltac:(repeat apply Rdiv_lt_0_compat; lra)).
  assert (P1 : 0 < y' / y) by (apply Rdiv_lt_0_compat; lra).
  assert (P2 : 0 < (y' + 1) / (y + 1)) by (apply Rdiv_lt_0_compat; lra).
  rewrite ln_div in L by auto.
  apply Rmult_le_compat_l with (r := y' + 1) in L; [|lra].
  replace ((y' + 1) * (y' / y / ((y' + 1) / (y + 1)) - 1)) with ((y' - y) / y) in L by (field; lra).
  lra.
Qed.

Lemma lgamma_tangent_seq a' a n : 0 < a' -> 0 < a ->
  bphi a' a - (a' - a) * (a' - a) / (a + INR (S (S n))) <=
  lgamma_seq a' n - lgamma_seq a n - digamma_seq a n * (a' - a).
Proof.
  intros Ha' Ha. unfold lgamma_seq, digamma_seq.
  assert (E : forall m, bphi a' a - bphi (a' + INR m) (a + INR m) <=
     - sn (fun k => ln (a' + INR k)) m + sn (fun k => ln (a + INR k)) m
     + sn (fun k => / (a + INR k)) m * (a' - a)).
  { induction m as [|m IH].
    - rewrite !sn_0. simpl INR. rewrite !Rplus_0_r. lra.
    - rewrite !sn_S. assert (Pm := pos_INR m).
      assert (B := bphi_shift (a' + INR m) (a + INR m) ltac:(lra) ltac:(lra)).
      rewrite ln_div in B by lra. rewrite S_INR.
      replace (a' + INR m - (a + INR m)) with (a' - a) in B by ring.
      rewrite !(Rplus_assoc _ (INR m) 1) in B. unfold Rdiv in B. lra. }
  specialize (E (S (S n))). assert (Pm := pos_INR (S (S n))).
  assert (U := bphi_upper (a' + INR (S (S n))) (a + INR (S (S n))) ltac:(lra) ltac:(lra)).
  replace (a' + INR (S (S n)) - (a + INR (S (S n)))) with (a' - a) in U by ring. lra.
Qed.

Theorem lgamma_tangent a' a : 0 < a' -> 0 < a ->
  bphi a' a <= lgamma a' - lgamma a - digamma a * (a' - a).
Proof.
  intros Ha' Ha.
  apply lim_ge with (u := fun n => lgamma_seq a' n - lgamma_seq a n - digamma_seq a n * (a' - a))
                    (v := fun n => bphi a' a - (a' - a) * (a' - a) / (a + INR (S (S n)))).
  - intros n. now apply lgamma_tangent_seq.
  - apply is_lim_seq_minus'; [apply is_lim_seq_minus'|].
    + now apply lgamma_lim.
    + now apply lgamma_lim.
    + apply is_lim_seq_mult'; [now apply digamma_lim|apply is_lim_seq_const].
  - replace (bphi a' a) with (bphi a' a - 0) at 1 by ring.
    apply is_lim_seq_minus'; [apply is_lim_seq_const|now apply lim_inv_shift].
Qed.

(** ** Sanity: recurrence, factorials *)
Lemma lgamma_seq_rec x n : 0 < x ->
  lgamma_seq (x + 1) n = lgamma_seq x n + ln x - (ln (x + INR (S (S n))) - ln (INR (S n))).
Proof.
  intros Hx. unfold lgamma_seq.
  replace (sn (fun k => ln (x + 1 + INR k)) (S (S n)))
    with (sn (fun k => ln (x + INR k)) (S (S n)) + ln (x + INR (S (S n))) - ln x); [ring|].
  rewrite <- sn_S. rewrite (sn_first _ (S (S n))). simpl (INR 0). rewrite Rplus_0_r.
  rewrite (sn_ext (fun k => ln (x + 1 + INR k)) (fun k => ln (x + INR (S k)))).
  - ring.
  - intros k _. rewrite S_INR. f_equal. ring.
Qed.

Lemma ln_ratio_lim x : 0 < x -> is_lim_seq (fun n => ln (x + INR (S (S n))) - ln (INR (S n))) 0.
Proof.
  intros Hx. apply is_lim_seq_le_le with (u := fun _ => 0) (w := fun n => 3 * ((x + 1) / (1 + INR (S (S n))))).
  - intros n. assert (H := INR_S_pos n). rewrite (S_INR (S n)). split.
    + assert (ln (INR (S n)) <= ln (x + (INR (S n) + 1))) by (apply ln_mono; lra). lra.
    + assert (L := ln_le_sub1 ((x + (INR (S n) + 1)) / INR (S n)) ltac:(apply Rdiv_lt_0_compat; lra)).
      rewrite ln_div in L by lra.
      replace ((x + (INR (S n) + 1)) / INR (S n) - 1) with ((x + 1) * / INR (S n)) in L by (field; lra).
      apply Rle_trans with ((x + 1) * / INR (S n)); [lra|].
      replace (3 * ((x + 1) / (1 + (INR (S n) + 1)))) with ((x + 1) * (/ ((INR (S n) + 2) * / 3))) by (field; lra).
      apply Rmult_le_compat_l; [lra|].
      assert (1 <= INR (S n)). { rewrite S_INR. assert (P := pos_INR n). lra. }
      apply Rinv_le_contravar; lra.
  - apply is_lim_seq_const.
  - replace (Finite 0) with (Finite (3 * 0)) by (f_equal; ring).
    apply (is_lim_seq_scal_l (fun n => (x + 1) / (1 + INR (S (S n)))) 3 0).
    apply lim_inv_shift. lra.
Qed.

Lemma lgamma_rec x : 0 < x -> lgamma (x + 1) = lgamma x + ln x.
Proof.
  intros Hx. assert (H1 := lgamma_lim (x + 1) ltac:(lra)). assert (H2 := lgamma_lim x Hx).
  assert (H3 : is_lim_seq (lgamma_seq (x + 1)) (lgamma x + ln x - 0)).
  { apply is_lim_seq_ext with (u := fun n => lgamma_seq x n + ln x - (ln (x + INR (S (S n))) - ln (INR (S n)))).
    - intros n. symmetry. now apply lgamma_seq_rec.
    - apply is_lim_seq_minus'; [|now apply ln_ratio_lim].
      apply is_lim_seq_plus'; [exact H2|apply is_lim_seq_const]. }
  apply is_lim_seq_unique in H1. apply is_lim_seq_unique in H3. rewrite H1 in H3.
  injection H3 as ->. ring.
Qed.

Lemma lgamma_seq_1 n : lgamma_seq 1 n = ln (INR (S n)) - ln (INR (S (S n))).
Proof.
  unfold lgamma_seq.
  assert (E : forall m, sn (fun k => ln (1 + INR k)) m = ln (INR (fact m))).
  { induction m as [|m IH]; [rewrite sn_0; simpl; now rewrite ln_1|].
    rewrite sn_S, IH, fact_S_INR, ln_mult.
    - rewrite (Rplus_comm 1). ring.
    - assert (P := pos_INR m). lra.
    - apply lt_0_INR, lt_O_fact. }
  rewrite E, (fact_S_INR (S n)), ln_mult.
  - rewrite (S_INR (S n)). ring.
  - assert (P := INR_S_pos n). lra.
  - apply lt_0_INR, lt_O_fact.
Qed.

Lemma lgamma_1 : lgamma 1 = 0.
Proof.
  assert (H1 := lgamma_lim 1 ltac:(lra)).
  assert (H3 : is_lim_seq (lgamma_seq 1) 0).
  { apply is_lim_seq_le_le with (u := fun n => - (1 / (0 + INR (S n)))) (w := fun _ => 0).
    - intros n. rewrite lgamma_seq_1, (S_INR (S n)). assert (H := INR_S_pos n).
      assert (U := ln_succ_upper _ H).
      assert (ln (INR (S n)) <= ln (INR (S n) + 1)) by (apply ln_mono; lra).
      unfold Rdiv. rewrite Rplus_0_l. lra.
    - replace (Finite 0) with (Rbar_opp 0) by (simpl; f_equal; ring).
      apply (is_lim_seq_opp (fun n => 1 / (0 + INR (S n)))). apply is_lim_seq_ext with (u := fun n => / INR (S n)).
      + intros n. assert (H := INR_S_pos n). field. lra.
      + apply (is_lim_seq_incr_1 (fun n => / INR n)).
        replace (Finite 0) with (Rbar_inv p_infty) by reflexivity.
        apply is_lim_seq_inv; [apply is_lim_seq_INR|discriminate].
    - apply is_lim_seq_const. }
  apply is_lim_seq_unique in H1. apply is_lim_seq_unique in H3. rewrite H1 in H3.
  now injection H3.
Qed.

(** Gamma(n+1) = n! *)
Lemma lgamma_fact n : lgamma (INR n + 1) = ln (INR (fact n)).
Proof.
  induction n as [|n IH].
  - simpl. rewrite Rplus_0_l, lgamma_1, ln_1. reflexivity.
  - rewrite lgamma_rec by apply INR_S_pos. rewrite S_INR, IH, fact_S_INR, ln_mult.
    + ring.
    + assert (P := pos_INR n). lra.
    + apply lt_0_INR, lt_O_fact.
Qed.

Lemma digamma_rec x : 0 < x -> digamma (x + 1) = digamma x + / x.
Proof.
  intros Hx. assert (H1 := digamma_lim (x + 1) ltac:(lra)). assert (H2 := digamma_lim x Hx).
  assert (H3 : is_lim_seq (digamma_seq (x + 1)) (digamma x + / x - 0)).
  { apply is_lim_seq_ext with (u := fun n => digamma_seq x n + / x - 1 / (x + INR (S (S n)))).
    - intros n. unfold digamma_seq.
      replace (sn (fun k => / (x + 1 + INR k)) (S (S n)))
        with (sn (fun k => / (x + INR k)) (S (S n)) + / (x + INR (S (S n))) - / x); [unfold Rdiv; ring|].
      rewrite <- sn_S. rewrite (sn_first _ (S (S n))). simpl (INR 0). rewrite Rplus_0_r.
      rewrite (sn_ext (fun k => / (x + 1 + INR k)) (fun k => / (x + INR (S k)))).
      + ring.
      + intros k _. rewrite S_INR. f_equal. ring.
    - apply is_lim_seq_minus'; [|now apply lim_inv_shift].
      apply is_lim_seq_plus'; [exact H2|apply is_lim_seq_const]. }
  apply is_lim_seq_unique in H1. apply is_lim_seq_unique in H3. rewrite H1 in H3.
  injection H3 as ->. ring.
Qed.

(** digamma is the only possible derivative: it supports lgamma from below at
    every point (lgamma_tangent) and is increasing. *)
Lemma digamma_mono a a' : 0 < a -> a < a' -> digamma a < digamma a'.
Proof.
  intros Ha H. assert (T1 := lgamma_tangent a' a ltac:(lra) Ha).
  assert (T2 := lgamma_tangent a a' Ha ltac:(lra)).
  assert (B : 0 < bphi a' a).
  { unfold bphi. assert (L := ln_le_sub1 (a / a') ltac:(apply Rdiv_lt_0_compat; lra)).
    assert (E : a' * ln (a' / a) > a' - a).
    { rewrite ln_div by lra. 
      assert (exp (ln a - ln a') = a / a') by (rewrite <- ln_div by lra; apply exp_ln, Rdiv_lt_0_compat; lra).
      assert (NZ : ln a - ln a' <> 0).
      { intros Z. assert (ln a < ln a') by (apply ln_increasing; lra). lra. }
      assert (G := exp_ineq1 (ln a - ln a') NZ). rewrite H0 in G.
      assert (a' * (1 + (ln a - ln a')) < a' * (a / a')) by (apply Rmult_lt_compat_l; lra).
      replace (a' * (a / a')) with a in H1 by (field; lra). lra. }
    lra. }
  assert (B2 := bphi_nonneg a a' Ha ltac:(lra)). nra.
Qed.

(** ** Joint convexity of the log-Beta function *)

(** Generalised binomial (x)_n / n! *)
Fixpoint rc (x : R) (n : nat) : R :=
  match n with O => 1 | S m => (x + INR m) / INR (S m) * rc x m end.

Lemma rc_pos x n : 0 < x -> 0 < rc x n.
Proof.
  intros Hx. induction n as [|n IH]; [simpl; lra|].
  change (0 < (x + INR n) / INR (S n) * rc x n). apply Rmult_lt_0_compat; [|exact IH].
  apply Rdiv_lt_0_compat; [assert (P := pos_INR n); lra|apply INR_S_pos].
Qed.

Lemma rc_S x n : INR (S n) * rc x (S n) = (x + INR n) * rc x n.
Proof.
  change (rc x (S n)) with ((x + INR n) / INR (S n) * rc x n).
  assert (H := INR_S_pos n). field. lra.
Qed.

Definition conv (a b : R) (N : nat) (h : nat -> nat -> R) : R :=
  sn (fun j => rc a j * rc b (N - j) * h j (N - j)%nat) (S N).

Lemma conv_step a b N h :
  INR (S N) * conv a b (S N) h =
  sn (fun j => rc a j * rc b (N - j) *
     ((a + INR j) * h (S j) (N - j)%nat + (b + INR (N - j)) * h j (S (N - j)))) (S N).
Proof.
  unfold conv. rewrite <- sn_scal.
  rewrite (sn_ext _ (fun j => INR j * rc a j * rc b (S N - j) * h j (S N - j)%nat
                     + rc a j * (INR (S N - j) * rc b (S N - j)) * h j (S N - j)%nat)).
  2:{ intros k Hk. rewrite (minus_INR (S N) k) by lia. ring. }
  rewrite sn_plus. rewrite (sn_first (fun j => INR j * rc a j * rc b (S N - j) * h j (S N - j)%nat)).
  rewrite (sn_S (fun j => rc a j * (INR (S N - j) * rc b (S N - j)) * h j (S N - j)%nat)).
  rewrite Nat.sub_diag. simpl (INR 0). rewrite !Rmult_0_l, Rmult_0_r, Rmult_0_l, Rplus_0_l, Rplus_0_r.
  rewrite <- sn_plus. apply sn_ext. intros k Hk.
  rewrite rc_S. replace (S N - k)%nat with (S (N - k)) by lia. rewrite rc_S.
  change (S N - S k)%nat with (N - k)%nat. ring.
Qed.

(** Vandermonde *)
Lemma conv_one a b N : conv a b N (fun _ _ => 1) = rc (a + b) N.
Proof.
  induction N as [|N IH].
  - unfold conv. rewrite sn_S, sn_0. simpl. ring.
  - apply Rmult_eq_reg_l with (INR (S N)); [|assert (H := INR_S_pos N); lra].
    rewrite conv_step, rc_S, <- IH. unfold conv. rewrite <- sn_scal.
    apply sn_ext. intros k Hk. rewrite minus_INR by lia. ring.
Qed.

Definition harm (a : R) (j : nat) : R := sn (fun k => / (a + INR k)) j.

Lemma conv_harm_l a b N : 0 < a -> 0 < b ->
  conv a b N (fun j _ => harm a j) = rc (a + b) N * harm (a + b) N.
Proof.
  intros Ha Hb. induction N as [|N IH].
  - unfold conv. rewrite sn_S, sn_0. unfold harm. rewrite !sn_0. ring.
  - apply Rmult_eq_reg_l with (INR (S N)); [|assert (H := INR_S_pos N); lra].
    rewrite conv_step, <- Rmult_assoc, rc_S.
    rewrite (sn_ext _ (fun j => (a + b + INR N) * (rc a j * rc b (N - j) * harm a j)
                        + rc a j * rc b (N - j) * 1)).
    2:{ intros k Hk. unfold harm at 1. rewrite sn_S. fold (harm a k). rewrite minus_INR by lia.
        assert (P := pos_INR k). field. lra. }
    rewrite sn_plus, sn_scal.
    change (sn (fun j => rc a j * rc b (N - j) * harm a j) (S N))
      with (conv a b N (fun j _ => harm a j)).
    change (sn (fun j => rc a j * rc b (N - j) * 1) (S N)) with (conv a b N (fun _ _ => 1)).
    rewrite IH, conv_one. unfold harm. rewrite sn_S. assert (P := pos_INR N). field. lra.
Qed.

Lemma conv_harm_r a b N : 0 < a -> 0 < b ->
  conv a b N (fun _ i => harm b i) = rc (a + b) N * harm (a + b) N.
Proof.
  intros Ha Hb. induction N as [|N IH].
  - unfold conv. rewrite sn_S, sn_0. simpl Nat.sub. unfold harm. rewrite !sn_0. ring.
  - apply Rmult_eq_reg_l with (INR (S N)); [|assert (H := INR_S_pos N); lra].
    rewrite conv_step, <- Rmult_assoc, rc_S.
    rewrite (sn_ext _ (fun j => (a + b + INR N) * (rc a j * rc b (N - j) * harm b (N - j))
                        + rc a j * rc b (N - j) * 1)).
    2:{ intros k Hk. unfold harm at 2. rewrite sn_S. fold (harm b (N - k)).
        rewrite (minus_INR N k) by lia.
        assert (P : INR k <= INR N) by (apply le_INR; lia). field. lra. }
    rewrite sn_plus, sn_scal.
    change (sn (fun j => rc a j * rc b (N - j) * harm b (N - j)) (S N))
      with (conv a b N (fun _ i => harm b i)).
    change (sn (fun j => rc a j * rc b (N - j) * 1) (S N)) with (conv a b N (fun _ _ => 1)).
    rewrite IH, conv_one. unfold harm. rewrite sn_S. assert (P := pos_INR N). field. lra.
Qed.

Lemma ln_rc x n : 0 < x -> ln (rc x n) = sn (fun k => ln (x + INR k)) n - ln (INR (fact n)).
Proof.
  intros Hx. induction n as [|n IH].
  - rewrite sn_0. simpl. rewrite !ln_1. ring.
  - change (rc x (S n)) with ((x + INR n) / INR (S n) * rc x n).
    assert (P := pos_INR n). assert (H := INR_S_pos n).
    rewrite ln_mult, ln_div, IH, sn_S, fact_S_INR, ln_mult, S_INR; try lra.
    + apply lt_0_INR, lt_O_fact.
    + apply Rdiv_lt_0_compat; lra.
    + now apply rc_pos.
Qed.

(** ln Sum exp is above its tangents (Jensen). *)
Lemma lse_tangent {A} (p q : A -> R) (l : list A) :
  (forall x, In x l -> 0 < p x) -> (forall x, In x l -> 0 < q x) -> l <> [] ->
  sumf (fun x => p x * (ln (q x) - ln (p x))) l <=
  sumf p l * (ln (sumf q l) - ln (sumf p l)).
Proof.
  intros Hp Hq Hl.
  assert (Sp : 0 < sumf p l).
  { destruct l as [|x l]; [congruence|]. apply sumf_pos with (a := x); [|now left|apply Hp; now left].
    intros y Hy. left. now apply Hp. }
  assert (Sq : 0 < sumf q l).
  { destruct l as [|x l]; [congruence|]. apply sumf_pos with (a := x); [|now left|apply Hq; now left].
    intros y Hy. left. now apply Hq. }
  assert (G := gibbs p (fun x => q x * (sumf p l / sumf q l)) l
     ltac:(intros; left; auto) ltac:(intros; apply Rmult_lt_0_compat; [auto|now apply Rdiv_lt_0_compat])).
  rewrite sumf_scal_r in G.
  replace (sumf q l * (sumf p l / sumf q l) - sumf p l) with 0 in G by (field; lra).
  assert (E : sumf (fun x => p x * (ln (q x * (sumf p l / sumf q l)) - ln (p x))) l =
     sumf (fun x => p x * (ln (q x) - ln (p x))) l + sumf p l * (ln (sumf p l) - ln (sumf q l))).
  { rewrite <- sumf_scal_r, <- sumf_plus. apply sumf_ext. intros x Hx.
    rewrite ln_mult, ln_div; auto; [ring|now apply Rdiv_lt_0_compat]. }
  rewrite E in G. lra.
Qed.

(** Finite version: F_N = ln rc(a+b,N) - sum_{k<=N} ln(a+k) - sum_{k<=N} ln(b+k). *)
Definition lnsum (a : R) (n : nat) : R := sn (fun k => ln (a + INR k)) n.

Lemma rising_tail_tangent a' a N j : 0 < a' -> 0 < a -> (j <= N)%nat ->
  - (harm a (S N) - harm a j) * (a' - a) <=
  (ln (rc a' j) - lnsum a' (S N)) - (ln (rc a j) - lnsum a (S N)).
Proof.
  intros Ha' Ha Hj. rewrite !ln_rc by auto. unfold lnsum, harm.
  enough (G : forall m, (j <= m)%nat ->
    - (sn (fun k => / (a + INR k)) m - sn (fun k => / (a + INR k)) j) * (a' - a) <=
    (sn (fun k => ln (a' + INR k)) j - sn (fun k => ln (a' + INR k)) m) -
    (sn (fun k => ln (a + INR k)) j - sn (fun k => ln (a + INR k)) m)).
  { specialize (G (S N) ltac:(lia)). lra. }
  induction m as [|m IH]; intros Hm.
  - replace j with 0%nat by lia. rewrite !sn_0. lra.
  - destruct (Nat.eq_dec j (S m)) as [->|Hne]; [lra|].
    specialize (IH ltac:(lia)). rewrite !(sn_S _ m).
    assert (P := pos_INR m).
    assert (L := ln_le_sub1 ((a' + INR m) / (a + INR m)) ltac:(apply Rdiv_lt_0_compat; lra)).
    rewrite ln_div in L by lra.
    replace ((a' + INR m) / (a + INR m) - 1) with (/ (a + INR m) * (a' - a)) in L by (field; lra).
    lra.
Qed.

Lemma beta_tangent_seq a' b' a b N : 0 < a' -> 0 < b' -> 0 < a -> 0 < b ->
  (harm (a + b) N - harm a (S N)) * (a' - a) + (harm (a + b) N - harm b (S N)) * (b' - b) <=
  (ln (rc (a' + b') N) - lnsum a' (S N) - lnsum b' (S N)) -
  (ln (rc (a + b) N) - lnsum a (S N) - lnsum b (S N)).
Proof.
  intros Ha' Hb' Ha Hb.
  set (c := exp (lnsum a (S N) + lnsum b (S N) - lnsum a' (S N) - lnsum b' (S N))).
  assert (Hc : 0 < c) by apply exp_pos.
  set (p := fun j => rc a j * rc b (N - j)).
  set (q := fun j => rc a' j * rc b' (N - j) * c).
  assert (Pp : forall j, 0 < p j).
  { intros j. unfold p. apply Rmult_lt_0_compat; now apply rc_pos. }
  assert (Pq : forall j, 0 < q j).
  { intros j. unfold q. repeat apply Rmult_lt_0_compat; try now apply rc_pos. exact Hc. }
  assert (L := lse_tangent p q (seq 0 (S N)) ltac:(auto) ltac:(auto) ltac:(discriminate)).
  change (sumf p (seq 0 (S N))) with (sn p (S N)) in L.
  change (sumf q (seq 0 (S N))) with (sn q (S N)) in L.
  assert (Ep : sn p (S N) = rc (a + b) N).
  { rewrite <- conv_one. unfold conv. apply sn_ext. intros. unfold p. ring. }
  assert (Eq : sn q (S N) = rc (a' + b') N * c).
  { rewrite <- conv_one. unfold conv. rewrite (Rmult_comm _ c), <- sn_scal.
    apply sn_ext. intros. unfold q. ring. }
  rewrite Ep, Eq in L.
  assert (Rp : 0 < rc (a + b) N) by (apply rc_pos; lra).
  assert (Rp' : 0 < rc (a' + b') N) by (apply rc_pos; lra).
  rewrite ln_mult in L by auto. unfold c in L. rewrite ln_exp in L.
  (* lower bound of the left hand side *)
  assert (Low : sn (fun j => rc a j * rc b (N - j) *
       (- (harm a (S N) - harm a j) * (a' - a) - (harm b (S N) - harm b (N - j)) * (b' - b))) (S N) <=
     sumf (fun x => p x * (ln (q x) - ln (p x))) (seq 0 (S N))).
  { apply sumf_le. intros j Hj. apply in_seq in Hj. apply Rmult_le_compat_l; [left; apply Pp|].
    unfold q, p. rewrite !ln_mult; try (now apply rc_pos); try (apply Rmult_lt_0_compat; now apply rc_pos); auto.
    unfold c. rewrite ln_exp.
    assert (T1 := rising_tail_tangent a' a N j Ha' Ha ltac:(lia)).
    assert (T2 := rising_tail_tangent b' b N (N - j) Hb' Hb ltac:(lia)). lra. }
  assert (E : sn (fun j => rc a j * rc b (N - j) *
       (- (harm a (S N) - harm a j) * (a' - a) - (harm b (S N) - harm b (N - j)) * (b' - b))) (S N) =
     rc (a + b) N * ((harm (a + b) N - harm a (S N)) * (a' - a) +
                     (harm (a + b) N - harm b (S N)) * (b' - b))).
  { rewrite (sn_ext _ (fun j =>
       (a' - a) * (rc a j * rc b (N - j) * harm a j) +
       ((b' - b) * (rc a j * rc b (N - j) * harm b (N - j)) +
       (- harm a (S N) * (a' - a) - harm b (S N) * (b' - b)) * (rc a j * rc b (N - j) * 1)))).
    2:{ intros k Hk. ring. }
    rewrite !sn_plus, !sn_scal.
    change (sn (fun j => rc a j * rc b (N - j) * harm a j) (S N)) with (conv a b N (fun j _ => harm a j)).
    change (sn (fun j => rc a j * rc b (N - j) * harm b (N - j)) (S N)) with (conv a b N (fun _ i => harm b i)).
    change (sn (fun j => rc a j * rc b (N - j) * 1) (S N)) with (conv a b N (fun _ _ => 1)).
    rewrite conv_harm_l, conv_harm_r, conv_one by auto. ring. }
  rewrite E in Low.
  apply Rmult_le_reg_l with (rc (a + b) N); [exact Rp|]. lra.
Qed.

Theorem beta_tangent a' b' a b : 0 < a' -> 0 < b' -> 0 < a -> 0 < b ->
  (digamma a - digamma (a + b)) * (a' - a) + (digamma b - digamma (a + b)) * (b' - b) <=
  (lgamma a' + lgamma b' - lgamma (a' + b')) - (lgamma a + lgamma b - lgamma (a + b)).
Proof.
  intros Ha' Hb' Ha Hb.
  set (s := a + b). set (s' := a' + b').
  assert (Hs : 0 < s) by (unfold s; lra). assert (Hs' : 0 < s') by (unfold s'; lra).
  apply lim_ge with
    (u := fun n => (lgamma_seq a' n + lgamma_seq b' n - lgamma_seq s' n) -
                   (lgamma_seq a n + lgamma_seq b n - lgamma_seq s n))
    (v := fun n => (digamma_seq a n - digamma_seq s n) * (a' - a) +
                   (digamma_seq b n - digamma_seq s n) * (b' - b)
                   - 2 * ((s' - s) * (s' - s)) / (s + INR (S (S n)))).
  - intros n. assert (T := beta_tangent_seq a' b' a b (S n) Ha' Hb' Ha Hb).
    fold s s' in T. rewrite !ln_rc in T by auto. unfold lnsum, harm in T.
    unfold lgamma_seq, digamma_seq.
    assert (D1 : sn (fun k => ln (s' + INR k)) (S (S n)) =
                 sn (fun k => ln (s' + INR k)) (S n) + ln (s' + INR (S n))) by apply sn_S.
    assert (D2 : sn (fun k => ln (s + INR k)) (S (S n)) =
                 sn (fun k => ln (s + INR k)) (S n) + ln (s + INR (S n))) by apply sn_S.
    assert (D3 : sn (fun k => / (s + INR k)) (S (S n)) =
                 sn (fun k => / (s + INR k)) (S n) + / (s + INR (S n))) by apply sn_S.
    set (N := INR (S n)) in *. assert (HN : 0 < N) by apply INR_S_pos.
    assert (HN2 : INR (S (S n)) = N + 1) by (unfold N; now rewrite (S_INR (S n))).
    (* ln ((s'+N)/(s+N)) >= (s'-s)/(s'+N) *)
    assert (L := ln_le_sub1 ((s + N) / (s' + N)) ltac:(apply Rdiv_lt_0_compat; lra)).
    rewrite ln_div in L by lra.
    replace ((s + N) / (s' + N) - 1) with (- ((s' - s) * / (s' + N))) in L by (field; lra).
    assert (Q : - (2 * ((s' - s) * (s' - s)) / (s + INR (S (S n)))) <=
                (s' - s) * / (s' + N) - (s' - s) * / (s + N)).
    { replace ((s' - s) * / (s' + N) - (s' - s) * / (s + N))
        with (- ((s' - s) * (s' - s) * (/ ((s' + N) * (s + N))))) by (field; lra).
      apply Ropp_le_contravar. rewrite HN2.
      replace (2 * ((s' - s) * (s' - s)) / (s + (N + 1)))
        with ((s' - s) * (s' - s) * (/ ((s + (N + 1)) * / 2))) by (field; lra).
      apply Rmult_le_compat_l; [apply Rle_0_sqr|].
      assert (1 <= N). { unfold N. rewrite S_INR. assert (P := pos_INR n). lra. }
      apply Rinv_le_contravar; nra. }
    rewrite D1, D2, D3. rewrite HN2 in *. unfold s, s' in *. lra.
  - repeat (apply is_lim_seq_minus' || apply is_lim_seq_plus'); now apply lgamma_lim.
  - replace (Finite ((digamma a - digamma s) * (a' - a) + (digamma b - digamma s) * (b' - b)))
      with (Finite ((digamma a - digamma s) * (a' - a) + (digamma b - digamma s) * (b' - b) - 0))
      by (f_equal; ring).
    apply is_lim_seq_minus'; [|now apply lim_inv_shift].
    apply is_lim_seq_plus'; apply is_lim_seq_mult'; try apply is_lim_seq_const;
      apply is_lim_seq_minus'; now apply digamma_lim.
Qed.

(** ** digamma is the derivative of lgamma *)
Lemma harm_diff a a' m : 0 < a -> 0 < a' ->
  harm a (S m) - harm a' (S m) = (a' - a) * sn (fun k => / ((a + INR k) * (a' + INR k))) (S m).
Proof.
  intros Ha Ha'. unfold harm. rewrite <- sn_scal.
  assert (E : forall n, sn (fun k => / (a + INR k)) n - sn (fun k => / (a' + INR k)) n =
     sn (fun k => (a' - a) * / ((a + INR k) * (a' + INR k))) n).
  { induction n as [|n IH]; [rewrite !sn_0; ring|]. rewrite !sn_S, <- IH.
    assert (P := pos_INR n). field. lra. }
  apply E.
Qed.

Lemma quad_bound a a' m : 0 < a -> 0 < a' ->
  sn (fun k => / ((a + INR k) * (a' + INR k))) (S (S m)) <= / (a * a') + 2 - / INR (S m).
Proof.
  intros Ha Ha'. induction m as [|m IH].
  - rewrite !sn_S, sn_0. simpl INR. rewrite !Rplus_0_r, Rplus_0_l, Rinv_1.
    assert (/ ((a + 1) * (a' + 1)) <= / 1) by (apply Rinv_le_contravar; nra).
    rewrite Rinv_1 in H. lra.
  - rewrite sn_S. assert (P := INR_S_pos m). rewrite (S_INR (S m)).
    set (M := INR (S m)) in *.
    assert (/ ((a + (M + 1)) * (a' + (M + 1))) <= / M - / (M + 1)).
    { replace (/ M - / (M + 1)) with (/ (M * (M + 1))) by (field; lra).
      apply Rinv_le_contravar; [nra|]. apply Rmult_le_compat; lra. }
    lra.
Qed.

Lemma digamma_lipschitz a a' : 0 < a -> 0 < a' ->
  Rabs (digamma a' - digamma a) <= (/ (a * a') + 2) * Rabs (a' - a).
Proof.
  intros Ha Ha'.
  apply lim_ge with (u := fun _ => (/ (a * a') + 2) * Rabs (a' - a))
                    (v := fun n => Rabs (digamma_seq a' n - digamma_seq a n)).
  - intros n. unfold digamma_seq.
    replace (ln (INR (S n)) - sn (fun k => / (a' + INR k)) (S (S n)) -
             (ln (INR (S n)) - sn (fun k => / (a + INR k)) (S (S n))))
      with (harm a (S (S n)) - harm a' (S (S n))) by (unfold harm; ring).
    rewrite harm_diff by auto. rewrite Rabs_mult, Rmult_comm.
    apply Rmult_le_compat_r; [apply Rabs_pos|].
    assert (B := quad_bound a a' n Ha Ha').
    assert (0 < / INR (S n)) by apply Rinv_0_lt_compat, INR_S_pos.
    rewrite Rabs_right; [lra|]. apply Rle_ge, sumf_nonneg.
    intros k _. left. apply Rinv_0_lt_compat. assert (P := pos_INR k).
    apply Rmult_lt_0_compat; lra.
  - apply is_lim_seq_const.
  - apply (is_lim_seq_abs _ (digamma a' - digamma a)).
    apply is_lim_seq_minus'; now apply digamma_lim.
Qed.

Theorem lgamma_derivative x : 0 < x -> derivable_pt_lim lgamma x (digamma x).
Proof.
  intros Hx eps He.
  set (K := / (x * (x / 2)) + 2).
  assert (HK : 0 < K).
  { unfold K. assert (0 < / (x * (x / 2))); [|lra].
    apply Rinv_0_lt_compat, Rmult_lt_0_compat; lra. }
  assert (Hd : 0 < Rmin (x / 2) (eps / (2 * K))).
  { apply Rmin_glb_lt; [lra|]. apply Rdiv_lt_0_compat; lra. }
  exists (mkposreal _ Hd). intros h Hh0 Hh. simpl in Hh.
  assert (H1 : Rabs h < x / 2) by (eapply Rlt_le_trans; [exact Hh|apply Rmin_l]).
  assert (H2 : Rabs h < eps / (2 * K)) by (eapply Rlt_le_trans; [exact Hh|apply Rmin_r]).
  assert (Hx' : x / 2 < x + h). { apply Rabs_def2 in H1. lra. }
  assert (T1 := lgamma_tangent (x + h) x ltac:(lra) Hx).
  assert (T2 := lgamma_tangent x (x + h) Hx ltac:(lra)).
  assert (B1 := bphi_nonneg (x + h) x ltac:(lra) Hx).
  assert (B2 := bphi_nonneg x (x + h) Hx ltac:(lra)).
  assert (Lp := digamma_lipschitz x (x + h) Hx ltac:(lra)).
  replace (x + h - x) with h in * by ring. replace (x - (x + h)) with (- h) in T2 by ring.
  assert (LK : / (x * (x + h)) + 2 <= K).
  { unfold K. apply Rplus_le_compat_r. apply Rinv_le_contravar;
      [apply Rmult_lt_0_compat; lra|]. apply Rmult_le_compat_l; lra. }
  set (D := lgamma (x + h) - lgamma x) in *. set (d := digamma (x + h) - digamma x) in *.
  assert (A1 : 0 <= D - digamma x * h) by lra.
  assert (A2 : D - digamma x * h <= d * h) by (unfold d, D; lra).
  assert (A3 : Rabs d <= K * Rabs h).
  { eapply Rle_trans; [exact Lp|]. apply Rmult_le_compat_r; [apply Rabs_pos|exact LK]. }
  replace (D / h - digamma x) with ((D - digamma x * h) / h) by (field; exact Hh0).
  unfold Rdiv. rewrite Rabs_mult, Rabs_Rinv by exact Hh0.
  assert (Ph : 0 < Rabs h) by now apply Rabs_pos_lt.
  apply Rmult_lt_reg_r with (Rabs h); [exact Ph|].
  rewrite Rmult_assoc, Rinv_l, Rmult_1_r by lra.
  rewrite Rabs_right by lra.
  apply Rle_lt_trans with (Rabs d * Rabs h).
  { eapply Rle_trans; [exact A2|]. rewrite <- Rabs_mult. apply Rle_abs. }
  apply Rmult_lt_compat_r; [exact Ph|].
  eapply Rle_lt_trans; [exact A3|].
  assert (K * Rabs h < K * (eps / (2 * K))) by (apply Rmult_lt_compat_l; assumption).
  replace (K * (eps / (2 * K))) with (eps / 2) in H by (field; lra). lra.
Qed.

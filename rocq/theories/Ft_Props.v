(** C157: the magnitude spectrum (features.py 142-143, 197-199). *)
From Coq Require Import Reals List Arith Bool ZArith Lia Lra Permutation.
From Verif Require Import Prelude Vec Gibbs Fe_Model Fe_Spec Fe_Proofs.
Import ListNotations.
Local Open Scope R_scope.

(** ** Sums over a whole period *)
Lemma sum_sin theta n : 2 * sin (theta / 2) * sumf (fun k => sin (theta * (INR k + / 2))) (seq 0 n) = 1 - cos (theta * INR n).
Proof.
  induction n as [|n IH].
  - cbn [seq]. rewrite sumf_nil. change (INR 0) with 0. rewrite (Rmult_0_r theta), cos_0. ring.
  - rewrite seq_S, sumf_app, Rmult_plus_distr_l, IH, sumf_cons, sumf_nil. cbn [Nat.add].
    replace (theta * INR n) with (theta * (INR n + / 2) - theta / 2) by field.
    rewrite S_INR. replace (theta * (INR n + 1)) with (theta * (INR n + / 2) + theta / 2) by field.
    rewrite cos_minus, cos_plus. ring.
Qed.

Lemma period_sums theta n : sin (theta / 2) <> 0 -> sin (theta * INR n) = 0 -> cos (theta * INR n) = 1 ->
  sumf (fun k => cos (theta * INR k)) (seq 0 n) = 0 /\ sumf (fun k => sin (theta * INR k)) (seq 0 n) = 0.
Proof.
  intros H0 Hs Hc. assert (E1 := sum_cos theta n). assert (E2 := sum_sin theta n). rewrite Hs in E1. rewrite Hc in E2.
  set (C := sumf (fun k => cos (theta * (INR k + / 2))) (seq 0 n)) in *.
  set (D := sumf (fun k => sin (theta * (INR k + / 2))) (seq 0 n)) in *.
  assert (C0 : C = 0). { apply (Rmult_eq_reg_l (2 * sin (theta / 2))); [rewrite E1; ring|lra]. }
  assert (D0 : D = 0). { apply (Rmult_eq_reg_l (2 * sin (theta / 2))); [rewrite E2; ring|lra]. }
  split.
  - rewrite (sumf_ext _ (fun k => cos (theta * (INR k + / 2)) * cos (theta / 2) + sin (theta * (INR k + / 2)) * sin (theta / 2))).
    + rewrite sumf_plus, !sumf_scal_r. fold C D. rewrite C0, D0. ring.
    + intros k _. rewrite <- cos_minus. f_equal. field.
  - rewrite (sumf_ext _ (fun k => sin (theta * (INR k + / 2)) * cos (theta / 2) - cos (theta * (INR k + / 2)) * sin (theta / 2))).
    + rewrite sumf_minus, !sumf_scal_r. fold C D. rewrite C0, D0. ring.
    + intros k _. rewrite <- sin_minus. f_equal. field.
Qed.

Lemma sin_2pi_nat k : sin (2 * PI * INR k) = 0.
Proof. replace (2 * PI * INR k) with (INR (2 * k) * PI) by (rewrite mult_INR; simpl; ring). apply sin_nat_pi. Qed.
Lemma cos_2pi_nat k : cos (2 * PI * INR k) = 1.
Proof. replace (2 * PI * INR k) with (0 + 2 * INR k * PI) by ring. rewrite cos_period. apply cos_0. Qed.

(** Frequencies (a - b) / n, a - b not a multiple of n *)
Lemma full_sums a b n : (a < n + b)%nat -> (b < n + a)%nat -> a <> b ->
  let theta := 2 * PI * (INR a - INR b) / INR n in
  sumf (fun k => cos (theta * INR k)) (seq 0 n) = 0 /\ sumf (fun k => sin (theta * INR k)) (seq 0 n) = 0.
Proof.
  intros H1 H2 Hne theta. assert (Hn : (0 < n)%nat) by lia. assert (HN : 0 < INR n) by now apply lt_0_INR.
  apply lt_INR in H1, H2. rewrite plus_INR in H1, H2. assert (P := PI_RGT_0).
  assert (En : theta * INR n = 2 * PI * INR a - 2 * PI * INR b) by (unfold theta; field; lra).
  apply period_sums.
  - replace (theta / 2) with (PI * ((INR a - INR b) / INR n)) by (unfold theta; field; lra).
    set (r := (INR a - INR b) / INR n).
    assert (Hr1 : - 1 < r). { apply (Rmult_lt_reg_r (INR n)); auto. unfold r. replace ((INR a - INR b) / INR n * INR n) with (INR a - INR b) by (field; lra). lra. }
    assert (Hr2 : r < 1). { apply (Rmult_lt_reg_r (INR n)); auto. unfold r. replace ((INR a - INR b) / INR n * INR n) with (INR a - INR b) by (field; lra). lra. }
    assert (Hr0 : r <> 0). { unfold r. intros E. apply Hne, INR_eq. apply (f_equal (Rmult (INR n))) in E. field_simplify in E; lra. }
    destruct (Rlt_dec 0 r) as [Hp|Hp].
    + assert (0 < sin (PI * r)); [|lra]. apply sin_gt_0; nra.
    + assert (0 < sin (PI * - r)); [apply sin_gt_0; nra|]. replace (PI * - r) with (- (PI * r)) in H by ring.
      rewrite sin_neg in H. lra.
  - rewrite En, sin_minus, !sin_2pi_nat. ring.
  - rewrite En, cos_minus, !sin_2pi_nat, !cos_2pi_nat. ring.
Qed.

Definition power (n k : nat) (x : list R) : R := dft_re n k x ^ 2 + dft_im n k x ^ 2.

Lemma power_nonneg n k x : 0 <= power n k x.
Proof. unfold power. assert (0 <= dft_re n k x ^ 2) by apply pow2_ge_0. assert (0 <= dft_im n k x ^ 2) by apply pow2_ge_0. lra. Qed.

Lemma magnitude_power n x k : (k < n / 2)%nat -> nth k (magnitude n x) 0 ^ 2 = power n k x.
Proof.
  intros Hk. unfold magnitude. rewrite (map_nth_lt _ _ _ 0%nat) by now rewrite seq_length. rewrite seq_nth by auto.
  cbn [plus]. apply pow2_sqrt. apply power_nonneg.
Qed.

(** The bins which are not kept repeat the others. *)
Lemma power_mirror n k x : (k <= n)%nat -> (0 < n)%nat -> power n (n - k) x = power n k x.
Proof.
  intros Hk Hn. assert (HN : INR n <> 0) by (apply not_0_INR; lia). unfold power.
  assert (A : forall j, 2 * PI * INR j * INR (n - k) / INR n = 2 * PI * INR j - 2 * PI * INR j * INR k / INR n).
  { intros j. rewrite minus_INR by auto. field. auto. }
  assert (E1 : dft_re n (n - k) x = dft_re n k x).
  { unfold dft_re. apply sumf_ext. intros j _. rewrite A, cos_minus, sin_2pi_nat, cos_2pi_nat. ring. }
  assert (E2 : dft_im n (n - k) x = - dft_im n k x).
  { unfold dft_im. rewrite <- sumf_opp. apply sumf_ext. intros j _. rewrite A, sin_minus, sin_2pi_nat, cos_2pi_nat. ring. }
  rewrite E1, E2. ring.
Qed.

Lemma sumf_sq (f : nat -> R) l : sumf f l ^ 2 = sumf (fun i => sumf (fun j => f i * f j) l) l.
Proof.
  rewrite (sumf_ext (fun i => sumf (fun j => f i * f j) l) (fun i => f i * sumf f l)) by (intros; apply sumf_scal_l).
  rewrite sumf_scal_r. ring.
Qed.

Lemma parseval n x : (length x <= n)%nat -> (0 < n)%nat ->
  sumf (fun k => power n k x) (seq 0 n) = INR n * sumf (fun j => nth j x 0 ^ 2) (seq 0 (length x)).
Proof.
  intros Hl Hn. assert (HN : INR n <> 0) by (apply not_0_INR; lia).
  set (L := seq 0 (length x)).
  assert (P : forall k, power n k x =
     sumf (fun i => sumf (fun j => nth i x 0 * nth j x 0 * cos (2 * PI * (INR i - INR j) / INR n * INR k)) L) L).
  { intros k. unfold power, dft_re, dft_im. fold L. rewrite !sumf_sq, <- sumf_plus. apply sumf_ext. intros i _.
    rewrite <- sumf_plus. apply sumf_ext. intros j _.
    replace (2 * PI * (INR i - INR j) / INR n * INR k)
      with (2 * PI * INR i * INR k / INR n - 2 * PI * INR j * INR k / INR n) by (field; auto).
    rewrite cos_minus. ring. }
  rewrite (sumf_ext _ (fun k => sumf (fun i => sumf (fun j => nth i x 0 * nth j x 0 * cos (2 * PI * (INR i - INR j) / INR n * INR k)) L) L)) by (intros; apply P).
  rewrite sumf_swap. rewrite <- sumf_scal_l. apply sumf_ext. intros i Hi. apply in_seq in Hi. rewrite sumf_swap.
  rewrite (sumf_single _ _ i).
  - rewrite (sumf_ext _ (fun _ => nth i x 0 ^ 2)).
    + rewrite sumf_const, seq_length. reflexivity.
    + intros k _. replace (2 * PI * (INR i - INR i) / INR n * INR k) with 0 by (field; auto). rewrite cos_0. ring.
  - apply seq_NoDup.
  - apply in_seq. lia.
  - intros j Hj Hne. apply in_seq in Hj. rewrite sumf_scal_l.
    destruct (full_sums i j n) as [E _]; try lia. cbv zeta in E. rewrite E. ring.
Qed.

(** ** C157 *)

(** The spectrum has the energy of the frame: the bins 1 .. n/2 - 1 count twice,
    and only the bin of the Nyquist frequency is lost. *)
Theorem C157_energy : forall h x, (0 < h)%nat -> (length x <= 2 * h)%nat ->
  let m := magnitude (2 * h) x in
  length m = h /\
  nth 0 m 0 ^ 2 + 2 * sumf (fun k => nth k m 0 ^ 2) (seq 1 (h - 1))
    + sumf (fun j => (-1) ^ j * nth j x 0) (seq 0 (length x)) ^ 2
  = INR (2 * h) * sumf (fun j => nth j x 0 ^ 2) (seq 0 (length x)).
Proof.
  intros h x Hh Hl m. assert (E2 : (2 * h / 2 = h)%nat) by (rewrite Nat.mul_comm; now apply Nat.div_mul).
  split. { unfold m, magnitude. now rewrite map_length, seq_length, E2. }
  rewrite <- parseval by lia. unfold m. rewrite magnitude_power by lia.
  rewrite (sumf_ext _ (fun k => power (2 * h) k x)) by (intros k Hk; apply in_seq in Hk; apply magnitude_power; lia).
  assert (HP : power (2 * h) h x = sumf (fun j => (-1) ^ j * nth j x 0) (seq 0 (length x)) ^ 2).
  { unfold power. assert (A : forall j, 2 * PI * INR j * INR h / INR (2 * h) = INR j * PI).
    { intros j. rewrite mult_INR. simpl (INR 2). field. apply not_0_INR. lia. }
    assert (Hc : forall j, cos (INR j * PI) = (-1) ^ j).
    { induction j as [|j IH]; [simpl; rewrite Rmult_0_l; apply cos_0|]. rewrite S_INR.
      replace ((INR j + 1) * PI) with (INR j * PI + PI) by ring. rewrite neg_cos, IH. simpl. ring. }
    assert (Er : dft_re (2 * h) h x = sumf (fun j => (-1) ^ j * nth j x 0) (seq 0 (length x))).
    { unfold dft_re. apply sumf_ext. intros j _. rewrite A, Hc. ring. }
    assert (Ei : dft_im (2 * h) h x = 0).
    { unfold dft_im. apply sumf_zero. intros j _. rewrite A, sin_nat_pi. ring. }
    rewrite Er, Ei. ring. }
  rewrite <- HP. clear HP m.
  assert (Hs : seq 0 (2 * h) = 0%nat :: seq 1 (h - 1) ++ h :: seq (h + 1) (h - 1)).
  { replace (2 * h)%nat with (1 + ((h - 1) + (1 + (h - 1))))%nat by lia. rewrite !seq_app. cbn [seq app plus].
    do 2 f_equal. replace (S (h - 1)) with h by lia. f_equal. f_equal. lia. }
  rewrite Hs, sumf_cons, sumf_app, sumf_cons.
  assert (Hr : sumf (fun k => power (2 * h) k x) (seq (h + 1) (h - 1)) = sumf (fun k => power (2 * h) k x) (seq 1 (h - 1))).
  { rewrite (sumf_perm _ (seq (h + 1) (h - 1)) (map (fun k => (2 * h - k)%nat) (seq 1 (h - 1)))).
    - rewrite sumf_map. apply sumf_ext. intros k Hk. apply in_seq in Hk. apply power_mirror; lia.
    - apply NoDup_Permutation; [apply seq_NoDup| |].
      + assert (G : forall a m, (a + m <= 2 * h)%nat -> NoDup (map (fun k => (2 * h - k)%nat) (seq a m))).
        { intros a m. revert a. induction m as [|m IH]; intros a Ha; [constructor|]. cbn [seq map]. constructor; [|apply IH; lia].
          intros Hin. apply in_map_iff in Hin. destruct Hin as (y & Ey & Hy). apply in_seq in Hy. lia. }
        apply G. lia.
      + intros y. rewrite in_map_iff, in_seq. split.
        * intros Hy. exists (2 * h - y)%nat. rewrite in_seq. lia.
        * intros (z & <- & Hz). apply in_seq in Hz. lia. }
  rewrite Hr. ring.
Qed.

(** A delay does not change the spectrum, nor does a change of sign. *)
Theorem C157_delay : forall n x, (S (length x) <= n)%nat -> magnitude n (0 :: x) = magnitude n x.
Proof.
  intros n x Hl. unfold magnitude. apply map_ext_in. intros k _. f_equal.
  assert (HN : INR n <> 0) by (apply not_0_INR; lia). set (al := 2 * PI * INR k / INR n).
  assert (A : forall j, 2 * PI * INR (S j) * INR k / INR n = 2 * PI * INR j * INR k / INR n + al).
  { intros j. unfold al. rewrite S_INR. field. auto. }
  assert (Er : dft_re n k (0 :: x) = cos al * dft_re n k x + sin al * dft_im n k x).
  { unfold dft_re, dft_im. cbn [length seq]. rewrite sumf_cons. cbn [nth]. rewrite <- seq_shift, sumf_map.
    rewrite <- !sumf_scal_l, <- sumf_plus. rewrite Rmult_0_l, Rplus_0_l. apply sumf_ext. intros j _. rewrite A, cos_plus.
    cbn [nth]. ring. }
  assert (Ei : dft_im n k (0 :: x) = cos al * dft_im n k x - sin al * dft_re n k x).
  { unfold dft_re, dft_im. cbn [length seq]. rewrite sumf_cons. cbn [nth]. rewrite <- seq_shift, sumf_map.
    rewrite <- !sumf_scal_l, <- sumf_minus. rewrite Rmult_0_l, Ropp_0, Rplus_0_l. apply sumf_ext. intros j _. rewrite A, sin_plus.
    cbn [nth]. ring. }
  rewrite Er, Ei. assert (T := sin2_cos2 al). unfold Rsqr in T.
  replace ((cos al * dft_re n k x + sin al * dft_im n k x) ^ 2 + (cos al * dft_im n k x - sin al * dft_re n k x) ^ 2)
    with ((sin al * sin al + cos al * cos al) * (dft_re n k x ^ 2 + dft_im n k x ^ 2)) by ring.
  rewrite T. ring.
Qed.

(** A tone of n samples at the frequency of a bin is in this bin only. *)
Theorem C157_tone : forall n k0 k phase, (0 < k0)%nat -> (2 * k0 < n)%nat -> (k < n / 2)%nat ->
  nth k (magnitude n (map (fun j => cos (2 * PI * INR k0 / INR n * INR j + phase)) (seq 0 n))) 0 =
  if (k =? k0)%nat then INR n / 2 else 0.
Proof.
  intros n k0 k ph H0 H1 Hk. assert (Hk2 : (2 * k < n)%nat).
  { assert (H := Nat.div_mod n 2). lia. }
  assert (HN : 0 < INR n) by (apply lt_0_INR; lia).
  unfold magnitude. rewrite (map_nth_lt _ _ _ 0%nat) by now rewrite seq_length. rewrite seq_nth by auto. cbn [plus].
  set (x := map _ _). assert (Lx : length x = n) by (unfold x; now rewrite map_length, seq_length).
  assert (Nx : forall j, (j < n)%nat -> nth j x 0 = cos (2 * PI * INR k0 / INR n * INR j + ph)).
  { intros j Hj. unfold x. rewrite (map_nth_lt _ _ _ 0%nat) by now rewrite seq_length. now rewrite seq_nth by auto. }
  set (tp := 2 * PI * (INR (k0 + k) - INR 0) / INR n). set (tm := 2 * PI * (INR k0 - INR k) / INR n).
  destruct (full_sums (k0 + k) 0 n) as [Cp Sp]; try lia. cbv zeta in Cp, Sp. fold tp in Cp, Sp.
  assert (Er : dft_re n k x = / 2 * (cos ph * sumf (fun j => cos (tm * INR j)) (seq 0 n) - sin ph * sumf (fun j => sin (tm * INR j)) (seq 0 n))).
  { transitivity (/ 2 * (cos ph * sumf (fun j => cos (tp * INR j)) (seq 0 n) - sin ph * sumf (fun j => sin (tp * INR j)) (seq 0 n))
                 + / 2 * (cos ph * sumf (fun j => cos (tm * INR j)) (seq 0 n) - sin ph * sumf (fun j => sin (tm * INR j)) (seq 0 n)));
      [|rewrite Cp, Sp; ring].
    unfold dft_re. rewrite Lx. rewrite <- !sumf_scal_l, <- !sumf_minus, <- !sumf_scal_l, <- sumf_plus. apply sumf_ext.
    intros j Hj. apply in_seq in Hj. rewrite Nx by lia.
    replace (tp * INR j) with (2 * PI * INR k0 / INR n * INR j + 2 * PI * INR j * INR k / INR n)
      by (unfold tp; rewrite plus_INR; change (INR 0) with 0; field; lra).
    replace (tm * INR j) with (2 * PI * INR k0 / INR n * INR j - 2 * PI * INR j * INR k / INR n) by (unfold tm; field; lra).
    rewrite !cos_plus, !sin_plus, cos_minus, sin_minus. field. }
  assert (Ei : dft_im n k x = / 2 * (cos ph * sumf (fun j => sin (tm * INR j)) (seq 0 n) + sin ph * sumf (fun j => cos (tm * INR j)) (seq 0 n))).
  { transitivity (- (/ 2 * (cos ph * sumf (fun j => sin (tp * INR j)) (seq 0 n) + sin ph * sumf (fun j => cos (tp * INR j)) (seq 0 n)))
                 + / 2 * (cos ph * sumf (fun j => sin (tm * INR j)) (seq 0 n) + sin ph * sumf (fun j => cos (tm * INR j)) (seq 0 n)));
      [|rewrite Cp, Sp; ring].
    unfold dft_im. rewrite Lx. rewrite <- !sumf_scal_l, <- !sumf_plus, <- !sumf_scal_l, <- sumf_opp, <- sumf_plus. apply sumf_ext.
    intros j Hj. apply in_seq in Hj. rewrite Nx by lia.
    replace (tp * INR j) with (2 * PI * INR k0 / INR n * INR j + 2 * PI * INR j * INR k / INR n)
      by (unfold tp; rewrite plus_INR; change (INR 0) with 0; field; lra).
    replace (tm * INR j) with (2 * PI * INR k0 / INR n * INR j - 2 * PI * INR j * INR k / INR n) by (unfold tm; field; lra).
    rewrite !cos_plus, !sin_plus, cos_minus, sin_minus. field. }
  destruct (Nat.eqb_spec k k0) as [->|Hne].
  - assert (Et : tm = 0) by (unfold tm; field; lra).
    assert (Cm : sumf (fun j => cos (tm * INR j)) (seq 0 n) = INR n).
    { rewrite (sumf_ext _ (fun _ => 1)); [rewrite sumf_const, seq_length; ring|]. intros j _. rewrite Et, Rmult_0_l. apply cos_0. }
    assert (Sm : sumf (fun j => sin (tm * INR j)) (seq 0 n) = 0).
    { apply sumf_zero. intros j _. rewrite Et, Rmult_0_l. apply sin_0. }
    rewrite Er, Ei, Cm, Sm. assert (T := sin2_cos2 ph). unfold Rsqr in T.
    replace ((/ 2 * (cos ph * INR n - sin ph * 0)) ^ 2 + (/ 2 * (cos ph * 0 + sin ph * INR n)) ^ 2)
      with ((sin ph * sin ph + cos ph * cos ph) * (INR n / 2) ^ 2) by field.
    rewrite T, Rmult_1_l. apply sqrt_pow2. lra.
  - destruct (full_sums k0 k n) as [Cm Sm]; try lia. cbv zeta in Cm, Sm. fold tm in Cm, Sm. rewrite Er, Ei, Cm, Sm.
    replace ((/ 2 * (cos ph * 0 - sin ph * 0)) ^ 2 + (/ 2 * (cos ph * 0 + sin ph * 0)) ^ 2) with 0 by ring. apply sqrt_0.
Qed.

(** An impulse has the same energy in all bins. *)
Example ex_C157 : forall a, magnitude 4 [0; a] = [Rabs a; Rabs a].
Proof.
  intros a. rewrite C157_delay by (simpl; lia). unfold magnitude. cbn [map seq Nat.div Nat.divmod fst].
  assert (E : forall k, sqrt (dft_re 4 k [a] ^ 2 + dft_im 4 k [a] ^ 2) = Rabs a).
  { intros k. assert (A : 2 * PI * INR 0 * INR k / INR 4 = 0) by (change (INR 0) with 0; unfold Rdiv; ring).
    assert (Er : dft_re 4 k [a] = a) by (unfold dft_re; cbn [length seq]; rewrite sumf_cons, sumf_nil, A, cos_0; cbn [nth]; ring).
    assert (Ei : dft_im 4 k [a] = 0) by (unfold dft_im; cbn [length seq]; rewrite sumf_cons, sumf_nil, A, sin_0; cbn [nth]; ring).
    rewrite Er, Ei, <- sqrt_Rsqr_abs. f_equal. unfold Rsqr. ring. }
  now rewrite !E.
Qed.

Print Assumptions C157_energy.
Print Assumptions C157_delay.
Print Assumptions C157_tone.

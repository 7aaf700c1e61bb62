(** Proofs about the NormalGamma distributions (diagonal and isotropic) and the
    Gamma distribution: round-trips, posterior updates, positivity. *)
From Coq Require Import Reals List Arith Bool Lia Lra.
From Verif Require Import Prelude Vec Gibbs Lgamma Dist_Model Dist_Spec Dist_Proofs.
Import ListNotations.
Local Open Scope R_scope.

(** ** Scalars *)

(** p^2/k is jointly convex. *)
Lemma quad_over_linear l p1 p2 k1 k2 : 0 <= l <= 1 -> 0 < k1 -> 0 < k2 ->
  ((1 - l) * p1 + l * p2) ^ 2 / ((1 - l) * k1 + l * k2) <=
  (1 - l) * (p1 ^ 2 / k1) + l * (p2 ^ 2 / k2).
Proof.
  intros Hl H1 H2.
  assert (Hk : 0 < (1 - l) * k1 + l * k2).
  { destruct (Rle_lt_dec l (1/2)); [assert (0 < (1 - l) * k1) by (apply Rmult_lt_0_compat; lra)
      | assert (0 < l * k2) by (apply Rmult_lt_0_compat; lra)];
    assert (0 <= (1 - l) * k1) by (apply Rmult_le_pos; lra);
    assert (0 <= l * k2) by (apply Rmult_le_pos; lra); lra. }
  assert (E : (1 - l) * (p1 ^ 2 / k1) + l * (p2 ^ 2 / k2)
    - ((1 - l) * p1 + l * p2) ^ 2 / ((1 - l) * k1 + l * k2)
    = (1 - l) * l * ((p1 * k2 - p2 * k1) * (p1 * k2 - p2 * k1)) / (k1 * k2 * ((1 - l) * k1 + l * k2))).
  { field. lra. }
  assert (0 <= (1 - l) * l * ((p1 * k2 - p2 * k1) * (p1 * k2 - p2 * k1)) / (k1 * k2 * ((1 - l) * k1 + l * k2))).
  { apply Rmult_le_pos.
    - apply Rmult_le_pos; [apply Rmult_le_pos; lra|]. apply Rle_0_sqr.
    - apply Rlt_le, Rinv_0_lt_compat. apply Rmult_lt_0_compat; [apply Rmult_lt_0_compat; lra|lra]. }
  lra.
Qed.

Lemma convex_pos l x y : 0 <= l <= 1 -> 0 < x -> 0 < y -> 0 < (1 - l) * x + l * y.
Proof.
  intros Hl Hx Hy. destruct (Rle_lt_dec l (1/2)).
  - assert (0 < (1 - l) * x) by (apply Rmult_lt_0_compat; lra).
    assert (0 <= l * y) by (apply Rmult_le_pos; lra). lra.
  - assert (0 < l * y) by (apply Rmult_lt_0_compat; lra).
    assert (0 <= (1 - l) * x) by (apply Rmult_le_pos; lra). lra.
Qed.

(** The smallest total squared deviation, prior pseudo-observations included. *)
Lemma complete_square k m N S Q : 0 < k + N ->
  k * (m - (k * m + S) / (k + N)) ^ 2
  + (Q - 2 * ((k * m + S) / (k + N)) * S + ((k * m + S) / (k + N)) ^ 2 * N)
  = k * m ^ 2 + Q - (k * m + S) ^ 2 / (k + N).
Proof. intros H. field. lra. Qed.

(** ** NormalGamma *)
Lemma ng_par_ext p q :
  ng_mean p = ng_mean q -> ng_scale p = ng_scale q -> ng_shape p = ng_shape q ->
  ng_rates p = ng_rates q -> p = q.
Proof. destruct p, q; simpl; intros; subst; reflexivity. Qed.

Lemma ng_nat_length d p : length (ng_mean p) = d -> length (ng_rates p) = d ->
  length (ng_nat p) = (2 * d + 2)%nat.
Proof.
  intros H1 H2. unfold ng_nat. rewrite !app_length, map_length, map2_length, H1, H2. simpl. lia.
Qed.

Lemma ng_nat_1 p k : (k < length (ng_mean p))%nat -> nth k (ng_nat p) 0 = ng_scale p * nth k (ng_mean p) 0.
Proof.
  intros H. unfold ng_nat. rewrite nth_app_l by (rewrite map_length; auto). now rewrite map_nth_R.
Qed.

Lemma ng_nat_2 d p k : length (ng_mean p) = d -> length (ng_rates p) = d -> (k < d)%nat ->
  nth (d + k) (ng_nat p) 0 = - (1/2) * ng_scale p * nth k (ng_mean p) 0 ^ 2 - nth k (ng_rates p) 0.
Proof.
  intros H1 H2 H. unfold ng_nat. rewrite nth_app_r by (rewrite map_length; auto).
  rewrite nth_app_l by (rewrite map2_length; lia). rewrite map2_nth_R by lia. reflexivity.
Qed.

Lemma ng_nat_3 d p j : length (ng_mean p) = d -> length (ng_rates p) = d ->
  nth (2 * d + j) (ng_nat p) 0 = nth j [- (1/2) * ng_scale p; ng_shape p - 1/2] 0.
Proof.
  intros H1 H2. unfold ng_nat. replace (2 * d + j)%nat with (d + (d + j))%nat by lia.
  rewrite nth_app_r by (rewrite map_length; auto).
  rewrite nth_app_r by (rewrite map2_length; lia). reflexivity.
Qed.

Lemma ng_dim d (n : list R) : length n = (2 * d + 2)%nat -> ((length n - 2) / 2)%nat = d.
Proof.
  intros H. rewrite H. replace (2 * d + 2 - 2)%nat with (d * 2)%nat by lia.
  apply Nat.div_mul. lia.
Qed.

Lemma ng_from_nat_spec d n : length n = (2 * d + 2)%nat ->
  let p := ng_from_nat n in
  length (ng_mean p) = d /\ length (ng_rates p) = d /\
  ng_scale p = -2 * nth (2 * d) n 0 /\ ng_shape p = nth (2 * d + 1) n 0 + 1/2 /\
  (forall k, (k < d)%nat -> nth k (ng_mean p) 0 = nth k n 0 / ng_scale p) /\
  (forall k, (k < d)%nat ->
     nth k (ng_rates p) 0 = - nth (d + k) n 0 - 1/2 * ng_scale p * nth k (ng_mean p) 0 ^ 2).
Proof.
  intros H p. unfold p, ng_from_nat. rewrite (ng_dim d n H). cbn [ng_mean ng_scale ng_shape ng_rates].
  assert (L1 : length (firstn d n) = d) by (rewrite firstn_length; lia).
  assert (L2 : length (slice d (2 * d) n) = d) by (rewrite slice_length; lia).
  rewrite (from_end_nth n 2 (2 * d + 2) H), (from_end_nth n 1 (2 * d + 2) H).
  replace (2 * d + 2 - 2)%nat with (2 * d)%nat by lia.
  replace (2 * d + 2 - 1)%nat with (2 * d + 1)%nat by lia.
  repeat apply conj; try reflexivity.
  - now rewrite map_length.
  - rewrite map2_length, map_length, L1, L2. lia.
  - intros k Hk. rewrite map_nth_R by lia. rewrite firstn_nth_lt by auto. reflexivity.
  - intros k Hk. rewrite map2_nth_R by (rewrite ?map_length; lia).
    rewrite slice_nth by lia. reflexivity.
Qed.

Lemma ng_roundtrip d p : length (ng_mean p) = d -> length (ng_rates p) = d -> ng_scale p <> 0 ->
  ng_from_nat (ng_nat p) = p.
Proof.
  intros H1 H2 Hs. assert (L := ng_nat_length d p H1 H2).
  destruct (ng_from_nat_spec d _ L) as (A & B & C & D & E & F).
  assert (T0 := ng_nat_3 d p 0 H1 H2). rewrite Nat.add_0_r in T0. cbn [nth] in T0.
  assert (T1 := ng_nat_3 d p 1 H1 H2). cbn [nth] in T1.
  assert (Es : ng_scale (ng_from_nat (ng_nat p)) = ng_scale p) by (rewrite C, T0; lra).
  assert (Em : ng_mean (ng_from_nat (ng_nat p)) = ng_mean p).
  { apply vec_ext; [congruence|]. intros k Hk. rewrite A in Hk. rewrite E by auto.
    rewrite Es, ng_nat_1 by lia. field. exact Hs. }
  apply ng_par_ext; auto.
  - rewrite D, T1. lra.
  - apply vec_ext; [congruence|]. intros k Hk. rewrite B in Hk. rewrite F by auto.
    rewrite Es, Em. rewrite (ng_nat_2 d) by auto. lra.
Qed.

Lemma ng_roundtrip' d n : length n = (2 * d + 2)%nat -> nth (2 * d) n 0 <> 0 ->
  ng_nat (ng_from_nat n) = n.
Proof.
  intros H Hs. destruct (ng_from_nat_spec d n H) as (A & B & C & D & E & F).
  set (p := ng_from_nat n) in *.
  assert (L := ng_nat_length d p A B).
  assert (T0 := ng_nat_3 d p 0 A B). rewrite Nat.add_0_r in T0. cbn [nth] in T0.
  assert (T1 := ng_nat_3 d p 1 A B). cbn [nth] in T1.
  apply vec_ext; [congruence|]. intros k Hk. rewrite L in Hk.
  destruct (Nat.lt_ge_cases k d) as [H1|H1].
  { rewrite ng_nat_1 by lia. rewrite E by auto. field. rewrite C. intros X. apply Hs. lra. }
  destruct (Nat.lt_ge_cases k (2 * d)) as [H2|H2].
  { replace k with (d + (k - d))%nat by lia. rewrite (ng_nat_2 d) by (auto; lia). rewrite F by lia. lra. }
  destruct (Nat.eq_dec k (2 * d)) as [->|H3].
  { rewrite T0, C. lra. }
  replace k with (2 * d + 1)%nat by lia. rewrite T1, D. lra.
Qed.

Lemma nd_suff_length x : length (nd_suff_stats x) = (2 * length x + 2)%nat.
Proof. unfold nd_suff_stats. rewrite !app_length, map_length. simpl. lia. Qed.

Lemma nd_suff_1 x k : (k < length x)%nat -> nth k (nd_suff_stats x) 0 = nth k x 0.
Proof. intros H. unfold nd_suff_stats. now rewrite nth_app_l. Qed.

Lemma nd_suff_2 x k : (k < length x)%nat ->
  nth (length x + k) (nd_suff_stats x) 0 = - (1/2) * nth k x 0 ^ 2.
Proof.
  intros H. unfold nd_suff_stats. rewrite nth_app_r by auto.
  rewrite nth_app_l by (rewrite map_length; auto). now rewrite map_nth_R.
Qed.

Lemma nd_suff_3 x j : nth (2 * length x + j) (nd_suff_stats x) 0 = nth j [- (1/2); 1/2] 0.
Proof.
  unfold nd_suff_stats. replace (2 * length x + j)%nat with (length x + (length x + j))%nat by lia.
  rewrite nth_app_r by auto. rewrite nth_app_r by (now rewrite map_length). reflexivity.
Qed.

Section NgUpdate.
  Variables (d : nat) (lrate : R) (prior post : ng_par) (data : wdata).
  Hypotheses (P1 : length (ng_mean prior) = d) (P2 : length (ng_rates prior) = d)
             (Q1 : length (ng_mean post) = d) (Q2 : length (ng_rates post) = d)
             (Hx : frames_of_dim d data).

  Let stats := wstats (2 * d + 2) nd_suff_stats data.
  Let n := vadd (ng_nat post) (vscale lrate (vsub (vadd (ng_nat prior) stats) (ng_nat post))).

  Lemma ng_stats_len : forall gx, In gx data -> length (nd_suff_stats (snd gx)) = (2 * d + 2)%nat.
  Proof.
    intros gx Hin. rewrite nd_suff_length. unfold frames_of_dim in Hx. rewrite Forall_forall in Hx.
    rewrite (Hx gx Hin). reflexivity.
  Qed.

  Lemma ng_frame_len : forall gx, In gx data -> length (snd gx) = d.
  Proof. intros gx Hin. unfold frames_of_dim in Hx. rewrite Forall_forall in Hx. apply (Hx gx Hin). Qed.

  Lemma ng_upd_length : length n = (2 * d + 2)%nat.
  Proof.
    unfold n. rewrite vlin_length; rewrite (ng_nat_length d) by auto; [reflexivity|].
    rewrite vadd_length; rewrite (ng_nat_length d) by auto; auto.
    symmetry. apply wstats_length, ng_stats_len.
  Qed.

  Lemma ng_upd_nth k : (k < 2 * d + 2)%nat ->
    nth k n 0 = (1 - lrate) * nth k (ng_nat post) 0 +
      lrate * (nth k (ng_nat prior) 0 + sumf (fun gx => fst gx * nth k (nd_suff_stats (snd gx)) 0) data).
  Proof.
    intros Hk. assert (L1 := ng_nat_length d prior P1 P2). assert (L2 := ng_nat_length d post Q1 Q2).
    assert (L3 : length stats = (2 * d + 2)%nat) by (apply wstats_length, ng_stats_len).
    unfold n. rewrite vlin_nth; [|rewrite vadd_length by congruence; congruence|lia].
    rewrite vadd_nth by lia. unfold stats. rewrite wstats_nth by (auto using ng_stats_len). reflexivity.
  Qed.

  Lemma ng_upd_1 k : (k < d)%nat ->
    nth k n 0 = (1 - lrate) * (ng_scale post * nth k (ng_mean post) 0) +
      lrate * (ng_scale prior * nth k (ng_mean prior) 0 + Sw k data).
  Proof.
    intros Hk. rewrite ng_upd_nth by lia. rewrite !ng_nat_1 by lia. do 3 f_equal.
    apply sumf_ext. intros gx Hin. rewrite nd_suff_1 by (rewrite ng_frame_len; auto). reflexivity.
  Qed.

  Lemma ng_upd_2 k : (k < d)%nat ->
    nth (d + k) n 0 =
      (1 - lrate) * (- (1/2) * ng_scale post * nth k (ng_mean post) 0 ^ 2 - nth k (ng_rates post) 0) +
      lrate * (- (1/2) * ng_scale prior * nth k (ng_mean prior) 0 ^ 2 - nth k (ng_rates prior) 0
               - 1/2 * sumf (fun gx => fst gx * nth k (snd gx) 0 ^ 2) data).
  Proof.
    intros Hk. rewrite ng_upd_nth by lia. rewrite !(ng_nat_2 d) by auto.
    rewrite (sumf_ext _ (fun gx => - (1/2) * (fst gx * nth k (snd gx) 0 ^ 2))).
    - rewrite sumf_scal_l. ring.
    - intros gx Hin. assert (E := ng_frame_len gx Hin).
      replace (d + k)%nat with (length (snd gx) + k)%nat by lia. rewrite nd_suff_2 by lia. ring.
  Qed.

  Lemma ng_upd_3 : nth (2 * d) n 0 =
    - (1/2) * ((1 - lrate) * ng_scale post + lrate * (ng_scale prior + Nw data)).
  Proof.
    rewrite ng_upd_nth by lia.
    assert (T0 := ng_nat_3 d post 0 Q1 Q2). rewrite Nat.add_0_r in T0. rewrite T0.
    assert (T1 := ng_nat_3 d prior 0 P1 P2). rewrite Nat.add_0_r in T1. rewrite T1. cbn [nth].
    rewrite (sumf_ext _ (fun gx => - (1/2) * fst gx)).
    - rewrite sumf_scal_l. unfold Nw. ring.
    - intros gx Hin. assert (E := nd_suff_3 (snd gx) 0). rewrite (ng_frame_len gx Hin), Nat.add_0_r in E.
      rewrite E. simpl. ring.
  Qed.

  Lemma ng_upd_4 : nth (2 * d + 1) n 0 =
    (1 - lrate) * (ng_shape post - 1/2) + lrate * (ng_shape prior - 1/2 + 1/2 * Nw data).
  Proof.
    rewrite ng_upd_nth by lia. rewrite !ng_nat_3 by auto. cbn [nth].
    rewrite (sumf_ext _ (fun gx => 1/2 * fst gx)).
    - rewrite sumf_scal_l. unfold Nw. ring.
    - intros gx Hin. assert (E := nd_suff_3 (snd gx) 1). rewrite (ng_frame_len gx Hin) in E.
      rewrite E. simpl. ring.
  Qed.

  (** Parameters after any step. *)
  Lemma ng_step_spec :
    let q := std_update ng_nat ng_from_nat lrate prior post stats in
    length (ng_mean q) = d /\ length (ng_rates q) = d /\
    ng_scale q = (1 - lrate) * ng_scale post + lrate * (ng_scale prior + Nw data) /\
    ng_shape q = (1 - lrate) * ng_shape post + lrate * (ng_shape prior + Nw data / 2) /\
    (forall k, (k < d)%nat -> nth k (ng_mean q) 0 =
      ((1 - lrate) * (ng_scale post * nth k (ng_mean post) 0) +
       lrate * (ng_scale prior * nth k (ng_mean prior) 0 + Sw k data)) / ng_scale q) /\
    (forall k, (k < d)%nat -> nth k (ng_rates q) 0 =
      (1 - lrate) * (1/2 * ng_scale post * nth k (ng_mean post) 0 ^ 2 + nth k (ng_rates post) 0) +
      lrate * (1/2 * ng_scale prior * nth k (ng_mean prior) 0 ^ 2 + nth k (ng_rates prior) 0
               + 1/2 * sumf (fun gx => fst gx * nth k (snd gx) 0 ^ 2) data)
      - 1/2 * ng_scale q * nth k (ng_mean q) 0 ^ 2).
  Proof.
    intros q. unfold q, std_update. fold stats. fold n.
    destruct (ng_from_nat_spec d n ng_upd_length) as (A & B & C & D & E & F).
    repeat apply conj; auto.
    - rewrite C, ng_upd_3. lra.
    - rewrite D, ng_upd_4. lra.
    - intros k Hk. rewrite E by auto. rewrite ng_upd_1 by auto. reflexivity.
    - intros k Hk. rewrite F by auto. rewrite ng_upd_2 by auto. ring.
  Qed.
End NgUpdate.

(** Full step: the textbook posterior. *)
Lemma ng_full_step d prior post data :
  length (ng_mean prior) = d -> length (ng_rates prior) = d ->
  length (ng_mean post) = d -> length (ng_rates post) = d ->
  frames_of_dim d data -> 0 < ng_scale prior + Nw data ->
  let q := std_update ng_nat ng_from_nat 1 prior post (wstats (2 * d + 2) nd_suff_stats data) in
  let k' := ng_scale prior + Nw data in
  length (ng_mean q) = d /\ length (ng_rates q) = d /\
  ng_scale q = k' /\ ng_shape q = ng_shape prior + Nw data / 2 /\
  (forall i, (i < d)%nat ->
     nth i (ng_mean q) 0 = (ng_scale prior * nth i (ng_mean prior) 0 + Sw i data) / k') /\
  (forall i, (i < d)%nat ->
     nth i (ng_rates q) 0 = nth i (ng_rates prior) 0
       + 1/2 * Dev i (nth i (ng_mean q) 0) data
       + 1/2 * ng_scale prior * (nth i (ng_mean prior) 0 - nth i (ng_mean q) 0) ^ 2).
Proof.
  intros P1 P2 Q1 Q2 Hx Hk q k'.
  destruct (ng_step_spec d 1 prior post data P1 P2 Q1 Q2 Hx) as (A & B & C & D & E & F).
  fold q in A, B, C, D, E, F.
  assert (Es : ng_scale q = k') by (rewrite C; unfold k'; ring).
  assert (Em : forall i, (i < d)%nat ->
     nth i (ng_mean q) 0 = (ng_scale prior * nth i (ng_mean prior) 0 + Sw i data) / k').
  { intros i Hi. rewrite E by auto. rewrite Es. f_equal. ring. }
  repeat apply conj; auto.
  - rewrite D. ring.
  - intros i Hi. rewrite F by auto. rewrite Es. rewrite (Em i Hi).
    rewrite Dev_expand.
    assert (G := complete_square (ng_scale prior) (nth i (ng_mean prior) 0) (Nw data) (Sw i data)
      (sumf (fun gx => fst gx * nth i (snd gx) 0 ^ 2) data) Hk). fold k' in G.
    set (Qs := sumf (fun gx => fst gx * nth i (snd gx) 0 ^ 2) data) in *.
    assert (G2 : k' * ((ng_scale prior * nth i (ng_mean prior) 0 + Sw i data) / k') ^ 2 =
      (ng_scale prior * nth i (ng_mean prior) 0 + Sw i data) ^ 2 / k').
    { field. unfold k'. lra. }
    lra.
Qed.

Lemma Dev_nonneg i c data : nonneg_weights data -> 0 <= Dev i c data.
Proof.
  intros H. apply sumf_nonneg. intros gx Hin. unfold nonneg_weights in H. rewrite Forall_forall in H.
  apply Rmult_le_pos; [apply (H gx Hin)|]. apply pow2_ge_0.
Qed.

Lemma ng_full_ok d prior post data : ng_ok d prior ->
  length (ng_mean post) = d -> length (ng_rates post) = d ->
  frames_of_dim d data -> nonneg_weights data ->
  ng_ok d (std_update ng_nat ng_from_nat 1 prior post (wstats (2 * d + 2) nd_suff_stats data)).
Proof.
  intros (P1 & P2 & P3 & P4 & P5) Q1 Q2 Hx Hw.
  assert (N0 := Nw_nonneg data Hw).
  destruct (ng_full_step d prior post data P1 P2 Q1 Q2 Hx ltac:(lra)) as (A & B & C & D & E & F).
  set (q := std_update _ _ _ _ _ _) in *.
  repeat apply conj; auto; try lra.
  apply Forall_pos_of_nth. intros i Hi. rewrite B in Hi. rewrite F by auto.
  assert (R0 := Forall_pos_nth _ i P5 ltac:(lia)).
  assert (D0 := Dev_nonneg i (nth i (ng_mean q) 0) data Hw).
  assert (S0 : 0 <= ng_scale prior * (nth i (ng_mean prior) 0 - nth i (ng_mean q) 0) ^ 2).
  { apply Rmult_le_pos; [lra|]. apply pow2_ge_0. }
  lra.
Qed.

(** Convex combinations (in the natural parameters) of proper distributions
    are proper. *)
Lemma ng_mix_ok d lrate p q : ng_ok d p -> ng_ok d q -> 0 <= lrate <= 1 ->
  ng_ok d (ng_from_nat (vadd (ng_nat p) (vscale lrate (vsub (ng_nat q) (ng_nat p))))).
Proof.
  intros (P1 & P2 & P3 & P4 & P5) (Q1 & Q2 & Q3 & Q4 & Q5) Hl.
  assert (L1 := ng_nat_length d p P1 P2). assert (L2 := ng_nat_length d q Q1 Q2).
  set (n := vadd _ _).
  assert (Ln : length n = (2 * d + 2)%nat) by (unfold n; rewrite vlin_length; congruence).
  assert (En : forall k, (k < 2 * d + 2)%nat ->
    nth k n 0 = (1 - lrate) * nth k (ng_nat p) 0 + lrate * nth k (ng_nat q) 0).
  { intros k Hk. unfold n. apply vlin_nth; [congruence|lia]. }
  destruct (ng_from_nat_spec d n Ln) as (A & B & C & D & E & F).
  set (r := ng_from_nat n) in *.
  assert (T0 := ng_nat_3 d p 0 P1 P2). rewrite Nat.add_0_r in T0. cbn [nth] in T0.
  assert (U0 := ng_nat_3 d q 0 Q1 Q2). rewrite Nat.add_0_r in U0. cbn [nth] in U0.
  assert (T1 := ng_nat_3 d p 1 P1 P2). cbn [nth] in T1.
  assert (U1 := ng_nat_3 d q 1 Q1 Q2). cbn [nth] in U1.
  assert (Es : ng_scale r = (1 - lrate) * ng_scale p + lrate * ng_scale q).
  { rewrite C, En, T0, U0 by lia. lra. }
  assert (Hs : 0 < ng_scale r) by (rewrite Es; apply convex_pos; auto).
  repeat apply conj; auto.
  - rewrite D, En, T1, U1 by lia. assert (X := convex_pos lrate _ _ Hl P4 Q4). lra.
  - apply Forall_pos_of_nth. intros i Hi. rewrite B in Hi. rewrite F by auto.
    rewrite E by auto. rewrite !En by lia. rewrite !(ng_nat_2 d), !ng_nat_1 by (auto; lia).
    set (mp := nth i (ng_mean p) 0). set (mq := nth i (ng_mean q) 0).
    assert (Rp := Forall_pos_nth _ i P5 ltac:(lia)). assert (Rq := Forall_pos_nth _ i Q5 ltac:(lia)).
    set (bp := nth i (ng_rates p) 0) in *. set (bq := nth i (ng_rates q) 0) in *.
    assert (X := quad_over_linear lrate (ng_scale p * mp) (ng_scale q * mq) _ _ Hl P3 Q3).
    rewrite <- Es in X.
    assert (X1 : (ng_scale p * mp) ^ 2 / ng_scale p = ng_scale p * mp ^ 2) by (field; lra).
    assert (X2 : (ng_scale q * mq) ^ 2 / ng_scale q = ng_scale q * mq ^ 2) by (field; lra).
    rewrite X1, X2 in X.
    assert (X3 : ng_scale r * (((1 - lrate) * (ng_scale p * mp) + lrate * (ng_scale q * mq)) / ng_scale r) ^ 2
      = ((1 - lrate) * (ng_scale p * mp) + lrate * (ng_scale q * mq)) ^ 2 / ng_scale r) by (field; lra).
    assert (Y := convex_pos lrate _ _ Hl Rp Rq).
    lra.
Qed.

(** A step is the convex combination of the posterior and the full step. *)
Lemma ng_step_mix d lrate prior post data :
  length (ng_mean prior) = d -> length (ng_rates prior) = d ->
  length (ng_mean post) = d -> length (ng_rates post) = d ->
  frames_of_dim d data -> 0 < ng_scale prior + Nw data ->
  std_update ng_nat ng_from_nat lrate prior post (wstats (2 * d + 2) nd_suff_stats data) =
  ng_from_nat (vadd (ng_nat post) (vscale lrate
    (vsub (ng_nat (ng_from_nat (vadd (ng_nat prior) (wstats (2 * d + 2) nd_suff_stats data)))) (ng_nat post)))).
Proof.
  intros P1 P2 Q1 Q2 Hx Hk. unfold std_update.
  set (n1 := vadd (ng_nat prior) (wstats (2 * d + 2) nd_suff_stats data)).
  assert (Ls : length (wstats (2 * d + 2) nd_suff_stats data) = (2 * d + 2)%nat)
    by (apply wstats_length; eapply ng_stats_len; eauto).
  assert (L1 := ng_nat_length d prior P1 P2).
  assert (Ln1 : length n1 = (2 * d + 2)%nat) by (unfold n1; rewrite vadd_length; congruence).
  rewrite (ng_roundtrip' d n1 Ln1); [reflexivity|].
  assert (E := ng_upd_3 d 1 prior prior data P1 P2 P1 P2 Hx).
  assert (E2 : vadd (ng_nat prior) (vscale 1 (vsub n1 (ng_nat prior))) = n1).
  { apply vec_ext; [rewrite vlin_length; congruence|]. intros k Hkk.
    rewrite vlin_length in Hkk by congruence. rewrite vlin_nth; [|congruence|lia]. ring. }
  fold n1 in E. rewrite E2 in E. rewrite E. lra.
Qed.

Lemma ng_full_is d prior post data :
  length (ng_mean prior) = d -> length (ng_rates prior) = d ->
  length (ng_mean post) = d -> length (ng_rates post) = d -> frames_of_dim d data ->
  std_update ng_nat ng_from_nat 1 prior post (wstats (2 * d + 2) nd_suff_stats data) =
  ng_from_nat (vadd (ng_nat prior) (wstats (2 * d + 2) nd_suff_stats data)).
Proof.
  intros P1 P2 Q1 Q2 Hx. unfold std_update. f_equal.
  assert (Ls : length (wstats (2 * d + 2) nd_suff_stats data) = (2 * d + 2)%nat)
    by (apply wstats_length; eapply ng_stats_len; eauto).
  assert (L1 := ng_nat_length d prior P1 P2). assert (L2 := ng_nat_length d post Q1 Q2).
  assert (L3 : length (vadd (ng_nat prior) (wstats (2 * d + 2) nd_suff_stats data)) = (2 * d + 2)%nat)
    by (rewrite vadd_length; congruence).
  apply vec_ext; [rewrite vlin_length; congruence|]. intros k Hk.
  rewrite vlin_length in Hk by congruence. rewrite vlin_nth; [|congruence|lia]. ring.
Qed.

Lemma ng_step_ok d lrate prior post data : ng_ok d prior -> ng_ok d post -> 0 <= lrate <= 1 ->
  frames_of_dim d data -> nonneg_weights data ->
  ng_ok d (std_update ng_nat ng_from_nat lrate prior post (wstats (2 * d + 2) nd_suff_stats data)).
Proof.
  intros Hp Hq Hl Hx Hw. assert (N0 := Nw_nonneg data Hw).
  assert (Hp' := Hp). assert (Hq' := Hq).
  destruct Hp' as (P1 & P2 & P3 & P4 & P5). destruct Hq' as (Q1 & Q2 & Q3 & Q4 & Q5).
  rewrite (ng_step_mix d) by (auto; lra).
  apply ng_mix_ok; auto.
  rewrite <- (ng_full_is d prior prior data) by auto. apply ng_full_ok; auto.
Qed.

(** ** Isotropic NormalGamma *)
Lemma ig_par_ext p q :
  ig_mean p = ig_mean q -> ig_scale p = ig_scale q -> ig_shape p = ig_shape q ->
  ig_rate p = ig_rate q -> p = q.
Proof. destruct p, q; simpl; intros; subst; reflexivity. Qed.

Lemma ig_nat_length p : length (ig_nat p) = (length (ig_mean p) + 3)%nat.
Proof. unfold ig_nat. rewrite app_length, map_length. reflexivity. Qed.

Lemma ig_nat_1 p k : (k < length (ig_mean p))%nat -> nth k (ig_nat p) 0 = ig_scale p * nth k (ig_mean p) 0.
Proof.
  intros H. unfold ig_nat. rewrite nth_app_l by (rewrite map_length; auto). now rewrite map_nth_R.
Qed.

Lemma ig_nat_2 d p j : length (ig_mean p) = d ->
  nth (d + j) (ig_nat p) 0 =
  nth j [- (1/2) * ig_scale p * sqnorm (ig_mean p) - ig_rate p; - (1/2) * ig_scale p;
         ig_shape p - 1 + 1/2 * INR d] 0.
Proof.
  intros H. unfold ig_nat. rewrite nth_app_r by (rewrite map_length; auto). now rewrite H.
Qed.

Lemma sqnorm_nth m : sqnorm m = sumf (fun k => nth k m 0 ^ 2) (seq 0 (length m)).
Proof.
  unfold sqnorm. rewrite rsum_nth, map_length. apply sumf_ext. intros k Hk. apply in_seq in Hk.
  rewrite map_nth_R by lia. reflexivity.
Qed.

Lemma sqnorm_mul m : rsum (map (fun x => x * x) m) = sqnorm m.
Proof. unfold sqnorm. f_equal. apply map_ext. intros; ring. Qed.

Lemma ig_from_nat_spec d n : length n = (d + 3)%nat ->
  let p := ig_from_nat n in
  length (ig_mean p) = d /\
  ig_scale p = -2 * nth (d + 1) n 0 /\ ig_shape p = nth (d + 2) n 0 + 1 - 1/2 * INR d /\
  (forall k, (k < d)%nat -> nth k (ig_mean p) 0 = nth k n 0 / ig_scale p) /\
  ig_rate p = - nth d n 0 - 1/2 * ig_scale p * sqnorm (ig_mean p).
Proof.
  intros H p. unfold p, ig_from_nat. replace (length n - 3)%nat with d by lia.
  cbn [ig_mean ig_scale ig_shape ig_rate].
  assert (L1 : length (firstn d n) = d) by (rewrite firstn_length; lia).
  rewrite (from_end_nth n 2 (d + 3) H), (from_end_nth n 1 (d + 3) H).
  replace (d + 3 - 2)%nat with (d + 1)%nat by lia.
  replace (d + 3 - 1)%nat with (d + 2)%nat by lia.
  rewrite sqnorm_mul.
  repeat apply conj; try reflexivity.
  - now rewrite map_length.
  - intros k Hk. rewrite map_nth_R by lia. rewrite firstn_nth_lt by auto. reflexivity.
Qed.

Lemma ig_roundtrip d p : length (ig_mean p) = d -> ig_scale p <> 0 ->
  ig_from_nat (ig_nat p) = p.
Proof.
  intros H1 Hs. assert (L := ig_nat_length p). rewrite H1 in L.
  destruct (ig_from_nat_spec d _ L) as (A & C & D & E & F).
  assert (T0 := ig_nat_2 d p 0 H1). rewrite Nat.add_0_r in T0. cbn [nth] in T0.
  assert (T1 := ig_nat_2 d p 1 H1). cbn [nth] in T1.
  assert (T2 := ig_nat_2 d p 2 H1). cbn [nth] in T2.
  assert (Es : ig_scale (ig_from_nat (ig_nat p)) = ig_scale p) by (rewrite C, T1; lra).
  assert (Em : ig_mean (ig_from_nat (ig_nat p)) = ig_mean p).
  { apply vec_ext; [congruence|]. intros k Hk. rewrite A in Hk. rewrite E by auto.
    rewrite Es, ig_nat_1 by lia. field. exact Hs. }
  apply ig_par_ext; auto.
  - rewrite D, T2. lra.
  - rewrite F, Es, Em, T0. lra.
Qed.

Lemma ig_roundtrip' d n : length n = (d + 3)%nat -> nth (d + 1) n 0 <> 0 ->
  ig_nat (ig_from_nat n) = n.
Proof.
  intros H Hs. destruct (ig_from_nat_spec d n H) as (A & C & D & E & F).
  set (p := ig_from_nat n) in *.
  assert (L := ig_nat_length p). rewrite A in L.
  assert (T0 := ig_nat_2 d p 0 A). rewrite Nat.add_0_r in T0. cbn [nth] in T0.
  assert (T1 := ig_nat_2 d p 1 A). cbn [nth] in T1.
  assert (T2 := ig_nat_2 d p 2 A). cbn [nth] in T2.
  apply vec_ext; [congruence|]. intros k Hk. rewrite L in Hk.
  destruct (Nat.lt_ge_cases k d) as [H1|H1].
  { rewrite ig_nat_1 by lia. rewrite E by auto. field. rewrite C. intros X. apply Hs. lra. }
  destruct (Nat.eq_dec k d) as [->|H2]; [rewrite T0, F; lra|].
  destruct (Nat.eq_dec k (d + 1)) as [->|H3]; [rewrite T1, C; lra|].
  replace k with (d + 2)%nat by lia. rewrite T2, D. lra.
Qed.

Lemma in_suff_length x : length (in_suff_stats x) = (length x + 3)%nat.
Proof. unfold in_suff_stats. rewrite app_length. reflexivity. Qed.

Lemma in_suff_1 x k : (k < length x)%nat -> nth k (in_suff_stats x) 0 = nth k x 0.
Proof. intros H. unfold in_suff_stats. now rewrite nth_app_l. Qed.

Lemma in_suff_2 d x j : length x = d ->
  nth (d + j) (in_suff_stats x) 0 = nth j [- (1/2) * sqnorm x; - (1/2); 1/2 * INR d] 0.
Proof. intros H. unfold in_suff_stats. rewrite nth_app_r by auto. now rewrite H. Qed.

(** Generic facts about an update. *)
Section GenUpdate.
  Context {P : Type} (nat_of : P -> list R) (from_nat : list R -> P).
  Variables (N : nat) (prior post : P) (stats : list R).
  Hypotheses (H1 : length (nat_of prior) = N) (H2 : length (nat_of post) = N)
             (H3 : length stats = N).

  Lemma gen_sum_length : length (vadd (nat_of prior) stats) = N.
  Proof. clear H2. rewrite vadd_length; congruence. Qed.

  Lemma gen_upd_length lrate :
    length (vadd (nat_of post) (vscale lrate (vsub (vadd (nat_of prior) stats) (nat_of post)))) = N.
  Proof. rewrite vlin_length; rewrite ?gen_sum_length; auto. Qed.

  Lemma gen_upd_nth lrate k : (k < N)%nat ->
    nth k (vadd (nat_of post) (vscale lrate (vsub (vadd (nat_of prior) stats) (nat_of post)))) 0 =
    (1 - lrate) * nth k (nat_of post) 0 + lrate * (nth k (nat_of prior) 0 + nth k stats 0).
  Proof.
    intros Hk. rewrite vlin_nth; [|rewrite gen_sum_length; auto|lia].
    rewrite vadd_nth by lia. reflexivity.
  Qed.

  Lemma gen_full : std_update nat_of from_nat 1 prior post stats = from_nat (vadd (nat_of prior) stats).
  Proof.
    unfold std_update. f_equal. assert (L := gen_sum_length).
    apply vec_ext; [rewrite gen_upd_length; auto|]. intros k Hk. rewrite gen_upd_length in Hk.
    rewrite gen_upd_nth by auto. rewrite vadd_nth by lia. ring.
  Qed.

  Lemma gen_step_mix lrate :
    nat_of (from_nat (vadd (nat_of prior) stats)) = vadd (nat_of prior) stats ->
    std_update nat_of from_nat lrate prior post stats =
    from_nat (vadd (nat_of post) (vscale lrate
      (vsub (nat_of (from_nat (vadd (nat_of prior) stats))) (nat_of post)))).
  Proof. intros E. unfold std_update. now rewrite E. Qed.
End GenUpdate.

Section IgUpdate.
  Variables (d : nat) (lrate : R) (prior post : ing_par) (data : wdata).
  Hypotheses (P1 : length (ig_mean prior) = d) (Q1 : length (ig_mean post) = d)
             (Hx : frames_of_dim d data).

  Let stats := wstats (d + 3) in_suff_stats data.
  Let n := vadd (ig_nat post) (vscale lrate (vsub (vadd (ig_nat prior) stats) (ig_nat post))).

  Lemma ig_stats_len : forall gx, In gx data -> length (in_suff_stats (snd gx)) = (d + 3)%nat.
  Proof.
    intros gx Hin. rewrite in_suff_length. unfold frames_of_dim in Hx. rewrite Forall_forall in Hx.
    rewrite (Hx gx Hin). reflexivity.
  Qed.

  Lemma ig_stats_length : length stats = (d + 3)%nat.
  Proof. apply wstats_length, ig_stats_len. Qed.

  Lemma ig_lens : length (ig_nat prior) = (d + 3)%nat /\ length (ig_nat post) = (d + 3)%nat.
  Proof. now rewrite !ig_nat_length, P1, Q1. Qed.

  Lemma ig_upd_length : length n = (d + 3)%nat.
  Proof. destruct ig_lens. apply gen_upd_length; auto using ig_stats_length. Qed.

  Lemma ig_upd_nth k : (k < d + 3)%nat ->
    nth k n 0 = (1 - lrate) * nth k (ig_nat post) 0 +
      lrate * (nth k (ig_nat prior) 0 + sumf (fun gx => fst gx * nth k (in_suff_stats (snd gx)) 0) data).
  Proof.
    intros Hk. destruct ig_lens. unfold n. rewrite (gen_upd_nth ig_nat (d + 3)); auto using ig_stats_length.
    unfold stats. rewrite wstats_nth by (auto using ig_stats_len). reflexivity.
  Qed.

  Lemma ig_upd_1 k : (k < d)%nat ->
    nth k n 0 = (1 - lrate) * (ig_scale post * nth k (ig_mean post) 0) +
      lrate * (ig_scale prior * nth k (ig_mean prior) 0 + Sw k data).
  Proof.
    intros Hk. rewrite ig_upd_nth by lia. rewrite !ig_nat_1 by lia. do 3 f_equal.
    apply sumf_ext. intros gx Hin. rewrite in_suff_1; [reflexivity|].
    rewrite (ng_frame_len d data Hx gx Hin). exact Hk.
  Qed.

  Lemma ig_upd_2 : nth d n 0 =
      (1 - lrate) * (- (1/2) * ig_scale post * sqnorm (ig_mean post) - ig_rate post) +
      lrate * (- (1/2) * ig_scale prior * sqnorm (ig_mean prior) - ig_rate prior
               - 1/2 * sumf (fun gx => fst gx * sqnorm (snd gx)) data).
  Proof.
    rewrite ig_upd_nth by lia.
    assert (T0 := ig_nat_2 d post 0 Q1). rewrite Nat.add_0_r in T0. cbn [nth] in T0.
    assert (T1 := ig_nat_2 d prior 0 P1). rewrite Nat.add_0_r in T1. cbn [nth] in T1.
    rewrite T0, T1.
    rewrite (sumf_ext _ (fun gx => - (1/2) * (fst gx * sqnorm (snd gx)))).
    - rewrite sumf_scal_l. ring.
    - intros gx Hin. assert (E := in_suff_2 d (snd gx) 0 (ng_frame_len d data Hx gx Hin)).
      rewrite Nat.add_0_r in E. cbn [nth] in E. rewrite E. ring.
  Qed.

  Lemma ig_upd_3 : nth (d + 1) n 0 =
    - (1/2) * ((1 - lrate) * ig_scale post + lrate * (ig_scale prior + Nw data)).
  Proof.
    rewrite ig_upd_nth by lia. rewrite !(ig_nat_2 d) by auto. cbn [nth].
    rewrite (sumf_ext _ (fun gx => - (1/2) * fst gx)).
    - rewrite sumf_scal_l. unfold Nw. ring.
    - intros gx Hin. rewrite (in_suff_2 d) by (apply (ng_frame_len d data Hx gx Hin)). simpl. ring.
  Qed.

  Lemma ig_upd_4 : nth (d + 2) n 0 =
    (1 - lrate) * (ig_shape post - 1 + 1/2 * INR d) +
    lrate * (ig_shape prior - 1 + 1/2 * INR d + 1/2 * INR d * Nw data).
  Proof.
    rewrite ig_upd_nth by lia. rewrite !(ig_nat_2 d) by auto. cbn [nth].
    rewrite (sumf_ext _ (fun gx => 1/2 * INR d * fst gx)).
    - rewrite sumf_scal_l. unfold Nw. ring.
    - intros gx Hin. rewrite (in_suff_2 d) by (apply (ng_frame_len d data Hx gx Hin)). simpl. ring.
  Qed.

  Lemma ig_step_spec :
    let q := std_update ig_nat ig_from_nat lrate prior post stats in
    length (ig_mean q) = d /\
    ig_scale q = (1 - lrate) * ig_scale post + lrate * (ig_scale prior + Nw data) /\
    ig_shape q = (1 - lrate) * ig_shape post + lrate * (ig_shape prior + INR d * Nw data / 2) /\
    (forall k, (k < d)%nat -> nth k (ig_mean q) 0 =
      ((1 - lrate) * (ig_scale post * nth k (ig_mean post) 0) +
       lrate * (ig_scale prior * nth k (ig_mean prior) 0 + Sw k data)) / ig_scale q) /\
    ig_rate q =
      (1 - lrate) * (1/2 * ig_scale post * sqnorm (ig_mean post) + ig_rate post) +
      lrate * (1/2 * ig_scale prior * sqnorm (ig_mean prior) + ig_rate prior
               + 1/2 * sumf (fun gx => fst gx * sqnorm (snd gx)) data)
      - 1/2 * ig_scale q * sqnorm (ig_mean q).
  Proof.
    intros q. unfold q, std_update. fold stats. fold n.
    destruct (ig_from_nat_spec d n ig_upd_length) as (A & C & D & E & F).
    repeat apply conj; auto.
    - rewrite C, ig_upd_3. lra.
    - rewrite D, ig_upd_4. lra.
    - intros k Hk. rewrite E by auto. rewrite ig_upd_1 by auto. reflexivity.
    - rewrite F. rewrite ig_upd_2. ring.
  Qed.
End IgUpdate.

Lemma ig_full_step d prior post data :
  length (ig_mean prior) = d -> length (ig_mean post) = d ->
  frames_of_dim d data -> 0 < ig_scale prior + Nw data ->
  let q := std_update ig_nat ig_from_nat 1 prior post (wstats (d + 3) in_suff_stats data) in
  let k' := ig_scale prior + Nw data in
  length (ig_mean q) = d /\
  ig_scale q = k' /\ ig_shape q = ig_shape prior + INR d * Nw data / 2 /\
  (forall i, (i < d)%nat ->
     nth i (ig_mean q) 0 = (ig_scale prior * nth i (ig_mean prior) 0 + Sw i data) / k') /\
  ig_rate q = ig_rate prior
     + 1/2 * sumf (fun i => Dev i (nth i (ig_mean q) 0) data) (seq 0 d)
     + 1/2 * ig_scale prior
       * sumf (fun i => (nth i (ig_mean prior) 0 - nth i (ig_mean q) 0) ^ 2) (seq 0 d).
Proof.
  intros P1 Q1 Hx Hk q k'.
  destruct (ig_step_spec d 1 prior post data P1 Q1 Hx) as (A & C & D & E & F).
  fold q in A, C, D, E, F.
  assert (Es : ig_scale q = k') by (rewrite C; unfold k'; ring).
  assert (Em : forall i, (i < d)%nat ->
     nth i (ig_mean q) 0 = (ig_scale prior * nth i (ig_mean prior) 0 + Sw i data) / k').
  { intros i Hi. rewrite E by auto. rewrite Es. f_equal. ring. }
  repeat apply conj; auto.
  - rewrite D. ring.
  - rewrite F, Es. rewrite !sqnorm_nth, A, P1.
    rewrite (sumf_ext (fun gx : R * list R => fst gx * sqnorm (snd gx))
      (fun gx => sumf (fun i => fst gx * nth i (snd gx) 0 ^ 2) (seq 0 d))).
    2:{ intros gx Hin. rewrite sqnorm_nth, (ng_frame_len d data Hx gx Hin), sumf_scal_l. reflexivity. }
    rewrite sumf_swap.
    assert (G : forall i, (i < d)%nat ->
       ig_scale prior * nth i (ig_mean prior) 0 ^ 2 + sumf (fun gx => fst gx * nth i (snd gx) 0 ^ 2) data
       - k' * nth i (ig_mean q) 0 ^ 2 =
       ig_scale prior * (nth i (ig_mean prior) 0 - nth i (ig_mean q) 0) ^ 2 + Dev i (nth i (ig_mean q) 0) data).
    { intros i Hi. rewrite (Em i Hi), Dev_expand.
      assert (G := complete_square (ig_scale prior) (nth i (ig_mean prior) 0) (Nw data) (Sw i data)
        (sumf (fun gx => fst gx * nth i (snd gx) 0 ^ 2) data) Hk). fold k' in G.
      assert (G2 : k' * ((ig_scale prior * nth i (ig_mean prior) 0 + Sw i data) / k') ^ 2 =
        (ig_scale prior * nth i (ig_mean prior) 0 + Sw i data) ^ 2 / k') by (field; unfold k'; lra).
      lra. }
    assert (GG : sumf (fun i => ig_scale prior * nth i (ig_mean prior) 0 ^ 2
        + sumf (fun gx => fst gx * nth i (snd gx) 0 ^ 2) data - k' * nth i (ig_mean q) 0 ^ 2) (seq 0 d) =
      sumf (fun i => ig_scale prior * (nth i (ig_mean prior) 0 - nth i (ig_mean q) 0) ^ 2
        + Dev i (nth i (ig_mean q) 0) data) (seq 0 d)).
    { apply sumf_ext. intros i Hi. apply in_seq in Hi. apply G. lia. }
    rewrite sumf_minus, !sumf_plus, !sumf_scal_l in GG. lra.
Qed.

Lemma ig_full_ok d prior post data : ig_ok d prior -> length (ig_mean post) = d ->
  frames_of_dim d data -> nonneg_weights data ->
  ig_ok d (std_update ig_nat ig_from_nat 1 prior post (wstats (d + 3) in_suff_stats data)).
Proof.
  intros (P1 & P3 & P4 & P5) Q1 Hx Hw.
  assert (N0 := Nw_nonneg data Hw).
  destruct (ig_full_step d prior post data P1 Q1 Hx ltac:(lra)) as (A & C & D & E & F).
  set (q := std_update _ _ _ _ _ _) in *.
  repeat apply conj; auto; try lra.
  - rewrite D. assert (0 <= INR d * Nw data) by (apply Rmult_le_pos; [apply pos_INR|lra]). lra.
  - rewrite F.
    assert (0 <= sumf (fun i => Dev i (nth i (ig_mean q) 0) data) (seq 0 d))
      by (apply sumf_nonneg; intros; now apply Dev_nonneg).
    assert (0 <= ig_scale prior * sumf (fun i => (nth i (ig_mean prior) 0 - nth i (ig_mean q) 0) ^ 2) (seq 0 d)).
    { apply Rmult_le_pos; [lra|]. apply sumf_nonneg. intros. apply pow2_ge_0. }
    lra.
Qed.

Lemma ig_mix_ok d lrate p q : ig_ok d p -> ig_ok d q -> 0 <= lrate <= 1 ->
  ig_ok d (ig_from_nat (vadd (ig_nat p) (vscale lrate (vsub (ig_nat q) (ig_nat p))))).
Proof.
  intros (P1 & P3 & P4 & P5) (Q1 & Q3 & Q4 & Q5) Hl.
  assert (L1 := ig_nat_length p). assert (L2 := ig_nat_length q). rewrite P1 in L1. rewrite Q1 in L2.
  set (n := vadd _ _).
  assert (Ln : length n = (d + 3)%nat) by (unfold n; rewrite vlin_length; congruence).
  assert (En : forall k, (k < d + 3)%nat ->
    nth k n 0 = (1 - lrate) * nth k (ig_nat p) 0 + lrate * nth k (ig_nat q) 0).
  { intros k Hk. unfold n. apply vlin_nth; [congruence|lia]. }
  destruct (ig_from_nat_spec d n Ln) as (A & C & D & E & F).
  set (r := ig_from_nat n) in *.
  assert (T0 := ig_nat_2 d p 0 P1). rewrite Nat.add_0_r in T0. cbn [nth] in T0.
  assert (U0 := ig_nat_2 d q 0 Q1). rewrite Nat.add_0_r in U0. cbn [nth] in U0.
  assert (Es : ig_scale r = (1 - lrate) * ig_scale p + lrate * ig_scale q).
  { rewrite C, En, !(ig_nat_2 d) by (auto; lia). cbn [nth]. lra. }
  assert (Hs : 0 < ig_scale r) by (rewrite Es; apply convex_pos; auto).
  repeat apply conj; auto.
  - rewrite D, En, !(ig_nat_2 d) by (auto; lia). cbn [nth].
    assert (X := convex_pos lrate _ _ Hl P4 Q4). lra.
  - rewrite F, En by lia. rewrite T0, U0.
    assert (G : sumf (fun i => ig_scale r * nth i (ig_mean r) 0 ^ 2) (seq 0 d) <=
      sumf (fun i => (1 - lrate) * (ig_scale p * nth i (ig_mean p) 0 ^ 2)
                     + lrate * (ig_scale q * nth i (ig_mean q) 0 ^ 2)) (seq 0 d)).
    { apply sumf_le. intros i Hi. apply in_seq in Hi. rewrite E by lia. rewrite En, !ig_nat_1 by lia.
      set (mp := nth i (ig_mean p) 0). set (mq := nth i (ig_mean q) 0).
      assert (X := quad_over_linear lrate (ig_scale p * mp) (ig_scale q * mq) _ _ Hl P3 Q3).
      rewrite <- Es in X.
      assert (X1 : (ig_scale p * mp) ^ 2 / ig_scale p = ig_scale p * mp ^ 2) by (field; lra).
      assert (X2 : (ig_scale q * mq) ^ 2 / ig_scale q = ig_scale q * mq ^ 2) by (field; lra).
      rewrite X1, X2 in X.
      assert (X3 : ig_scale r * (((1 - lrate) * (ig_scale p * mp) + lrate * (ig_scale q * mq)) / ig_scale r) ^ 2
        = ((1 - lrate) * (ig_scale p * mp) + lrate * (ig_scale q * mq)) ^ 2 / ig_scale r) by (field; lra).
      lra. }
    rewrite sumf_plus, !sumf_scal_l in G. rewrite !sqnorm_nth, A, P1, Q1.
    assert (Y := convex_pos lrate _ _ Hl P5 Q5). lra.
Qed.

Lemma ig_full_nat d prior data : length (ig_mean prior) = d -> frames_of_dim d data ->
  0 < ig_scale prior + Nw data ->
  ig_nat (ig_from_nat (vadd (ig_nat prior) (wstats (d + 3) in_suff_stats data))) =
  vadd (ig_nat prior) (wstats (d + 3) in_suff_stats data).
Proof.
  intros P1 Hx Hk. assert (Ls := ig_stats_length d data Hx).
  assert (L1 := ig_nat_length prior). rewrite P1 in L1.
  apply (ig_roundtrip' d); [apply gen_sum_length; auto|].
  assert (E := ig_upd_3 d 1 prior prior data P1 P1 Hx).
  rewrite (gen_upd_nth ig_nat (d + 3)) in E by (auto; lia).
  rewrite vadd_nth by lia. lra.
Qed.

Lemma ig_step_ok d lrate prior post data : ig_ok d prior -> ig_ok d post -> 0 <= lrate <= 1 ->
  frames_of_dim d data -> nonneg_weights data ->
  ig_ok d (std_update ig_nat ig_from_nat lrate prior post (wstats (d + 3) in_suff_stats data)).
Proof.
  intros Hp Hq Hl Hx Hw. assert (N0 := Nw_nonneg data Hw).
  assert (Hp' := Hp). assert (Hq' := Hq).
  destruct Hp' as (P1 & P3 & P4 & P5). destruct Hq' as (Q1 & Q3 & Q4 & Q5).
  rewrite gen_step_mix by (apply ig_full_nat; auto; lra).
  apply ig_mix_ok; auto.
  rewrite <- (gen_full ig_nat ig_from_nat (d + 3) prior prior); rewrite ?ig_nat_length; auto using ig_stats_length.
  apply ig_full_ok; auto.
Qed.

(** ** Gamma *)
Lemma gamma_par_ext p q : g_shape p = g_shape q -> g_rate p = g_rate q -> p = q.
Proof. destruct p, q; simpl; intros; subst; reflexivity. Qed.

Lemma gamma_nat_length d p : length (g_shape p) = d -> length (g_rate p) = d ->
  length (gamma_nat p) = (2 * d)%nat.
Proof. intros H1 H2. unfold gamma_nat. rewrite app_length, !map_length. lia. Qed.

Lemma gamma_nat_1 p k : (k < length (g_rate p))%nat -> nth k (gamma_nat p) 0 = - nth k (g_rate p) 0.
Proof.
  intros H. unfold gamma_nat. rewrite nth_app_l by (rewrite map_length; auto). now rewrite map_nth_R.
Qed.

Lemma gamma_nat_2 d p k : length (g_rate p) = d -> (k < length (g_shape p))%nat ->
  nth (d + k) (gamma_nat p) 0 = nth k (g_shape p) 0 - 1.
Proof.
  intros H1 H. unfold gamma_nat. rewrite nth_app_r by (rewrite map_length; auto). now rewrite map_nth_R.
Qed.

Lemma gamma_from_nat_spec d n : length n = (2 * d)%nat ->
  let p := gamma_from_nat n in
  length (g_shape p) = d /\ length (g_rate p) = d /\
  (forall k, (k < d)%nat -> nth k (g_rate p) 0 = - nth k n 0) /\
  (forall k, (k < d)%nat -> nth k (g_shape p) 0 = nth (d + k) n 0 + 1).
Proof.
  intros H p. unfold p, gamma_from_nat. rewrite H. replace (2 * d)%nat with (d * 2)%nat by lia.
  rewrite Nat.div_mul by lia. cbn [g_shape g_rate].
  assert (L1 : length (firstn d n) = d) by (rewrite firstn_length; lia).
  assert (L2 : length (skipn d n) = d) by (rewrite skipn_length; lia).
  rewrite !map_length. repeat apply conj; auto.
  - intros k Hk. rewrite map_nth_R by lia. now rewrite firstn_nth_lt.
  - intros k Hk. rewrite map_nth_R by lia. now rewrite skipn_nth.
Qed.

Lemma gamma_roundtrip d p : length (g_shape p) = d -> length (g_rate p) = d ->
  gamma_from_nat (gamma_nat p) = p.
Proof.
  intros H1 H2. destruct (gamma_from_nat_spec d _ (gamma_nat_length d p H1 H2)) as (A & B & C & D).
  apply gamma_par_ext; apply vec_ext; try congruence.
  - intros k Hk. rewrite A in Hk. rewrite D by auto. rewrite (gamma_nat_2 d) by (auto; lia). lra.
  - intros k Hk. rewrite B in Hk. rewrite C by auto. rewrite gamma_nat_1 by lia. lra.
Qed.

Lemma gamma_roundtrip' d n : length n = (2 * d)%nat -> gamma_nat (gamma_from_nat n) = n.
Proof.
  intros H. destruct (gamma_from_nat_spec d n H) as (A & B & C & D).
  assert (L := gamma_nat_length d _ A B). apply vec_ext; [congruence|].
  intros k Hk. rewrite L in Hk. destruct (Nat.lt_ge_cases k d) as [H1|H1].
  - rewrite gamma_nat_1 by lia. rewrite C by auto. lra.
  - replace k with (d + (k - d))%nat by lia. rewrite (gamma_nat_2 d) by (auto; lia). rewrite D by lia. lra.
Qed.

Lemma gamma_step_spec d lrate prior post stats :
  length (g_shape prior) = d -> length (g_rate prior) = d ->
  length (g_shape post) = d -> length (g_rate post) = d -> length stats = (2 * d)%nat ->
  let q := std_update gamma_nat gamma_from_nat lrate prior post stats in
  length (g_shape q) = d /\ length (g_rate q) = d /\
  (forall k, (k < d)%nat -> nth k (g_rate q) 0 =
     (1 - lrate) * nth k (g_rate post) 0 + lrate * (nth k (g_rate prior) 0 - nth k stats 0)) /\
  (forall k, (k < d)%nat -> nth k (g_shape q) 0 =
     (1 - lrate) * nth k (g_shape post) 0 + lrate * (nth k (g_shape prior) 0 + nth (d + k) stats 0)).
Proof.
  intros P1 P2 Q1 Q2 Hs q. unfold q, std_update.
  set (n := vadd (gamma_nat post) _).
  assert (L1 := gamma_nat_length d prior P1 P2). assert (L2 := gamma_nat_length d post Q1 Q2).
  assert (Ln : length n = (2 * d)%nat) by (apply gen_upd_length; auto).
  destruct (gamma_from_nat_spec d n Ln) as (A & B & C & D).
  repeat apply conj; auto.
  - intros k Hk. rewrite C by auto. unfold n. rewrite (gen_upd_nth gamma_nat (2 * d)) by (auto; lia).
    rewrite !gamma_nat_1 by lia. ring.
  - intros k Hk. rewrite D by auto. unfold n. rewrite (gen_upd_nth gamma_nat (2 * d)) by (auto; lia).
    rewrite !(gamma_nat_2 d) by (auto; lia). ring.
Qed.

(** C158: the filter bank coefficients (features.py 145-204). *)
From Coq Require Import Reals List Arith Bool ZArith Lia Lra.
From Verif Require Import Prelude Vec Gibbs Fe_Model Fe_Spec Fe_Proofs Fe_Props.
Import ListNotations.
Local Open Scope R_scope.

(** ** Specification *)
(** Sample [i] after pre-emphasis of the whole signal: the sample before the
    first one is taken to be the first one. *)
Definition emph (p : R) (s : list R) (i : nat) : R := nth i s 0 - p * nth (i - 1) s 0.
(** Tap [j] of the Hamming window of length [m] *)
Definition tap (m j : nat) : R := 54 / 100 - 46 / 100 * cos (2 * PI * INR j / INR (m - 1)).
(** Sample [j] of frame [t] *)
Definition frame_sample (p : R) (s : list R) (flen frate t j : nat) : R := emph p s (t * frate + j) * tap flen j.
(** Amplitude of bin [k] of [N] of frame [t] *)
Definition amplitude (p : R) (s : list R) (flen frate N t k : nat) : R :=
  sqrt (sumf (fun j => frame_sample p s flen frate t j * cos (2 * PI * INR j * INR k / INR N)) (seq 0 flen) ^ 2 +
        sumf (fun j => frame_sample p s flen frate t j * sin (2 * PI * INR j * INR k / INR N)) (seq 0 flen) ^ 2).
(** First power of two above the frame length *)
Definition pow2_above (flen N : nat) : Prop := exists e, N = (2 ^ e)%nat /\ (flen < N <= 2 * flen)%nat.
(** The filters are at least one bin wide. *)
Definition wide_filters (n N : nat) (lo hi : R) : Prop :=
  (0 < n)%nat /\ 0 <= lo /\ lo < hi /\ hi <= 8000 /\
  1 <= INR N * (mel2hz (hz2mel lo + (hz2mel hi - hz2mel lo) / INR (n + 1)) - lo) / 16000.

(** ** Lemmas *)
Lemma ln_le_mono a b : 0 < a -> a <= b -> ln a <= ln b.
Proof. intros Ha [H|H]; [left; now apply ln_increasing|subst; lra]. Qed.

Lemma fft_len_above flen N : (0 < flen)%nat -> pow2_above flen N -> fft_len flen = N /\ Nat.Even N /\ (0 < N)%nat.
Proof.
  intros Hf (e & -> & H1 & H2). rewrite fft_len_log2 by auto.
  destruct e as [|e]; [simpl in H1; lia|].
  assert (Nat.log2 flen = e). { apply Nat.log2_unique; [lia|]. simpl in *. lia. }
  split; [|split].
  - f_equal. lia.
  - exists (2 ^ e)%nat. simpl. lia.
  - assert (X := Nat.pow_nonzero 2 (S e) ltac:(lia)). lia.
Qed.

Lemma removelast_nth (x : list R) i : (i + 1 < length x)%nat -> nth i (removelast x) 0 = nth i x 0.
Proof.
  revert i. induction x as [|a x IH]; intros i H; [simpl in H; lia|]. destruct x as [|b x]; [simpl in H; lia|].
  change (removelast (a :: b :: x)) with (a :: removelast (b :: x)).
  destruct i as [|i]; [reflexivity|]. cbn [nth]. apply IH. simpl in *. lia.
Qed.
Lemma removelast_len (x : list R) : length (removelast x) = (length x - 1)%nat.
Proof.
  induction x as [|a x IH]; [reflexivity|]. destruct x as [|b x]; [reflexivity|].
  change (removelast (a :: b :: x)) with (a :: removelast (b :: x)). cbn [length] in *. lia.
Qed.
Lemma preemphasis_len p x : length (preemphasis p x) = length x.
Proof.
  unfold preemphasis. rewrite map2_length. destruct x as [|a x]; [reflexivity|].
  change (length (a :: removelast (a :: x))) with (S (length (removelast (a :: x)))). rewrite removelast_len. simpl. lia.
Qed.
Lemma preemphasis_nth p x i : (i < length x)%nat -> nth i (preemphasis p x) 0 = emph p x i.
Proof.
  intros H. unfold preemphasis, emph. destruct x as [|a x]; [simpl in H; lia|].
  assert (L : length (a :: removelast (a :: x)) = length (a :: x)).
  { change (length (a :: removelast (a :: x))) with (S (length (removelast (a :: x)))). rewrite removelast_len. simpl. lia. }
  rewrite (map2_nth _ _ _ i 0 0 0) by (rewrite ?L; exact H). f_equal. f_equal.
  destruct i as [|i]; [reflexivity|]. replace (S i - 1)%nat with i by lia.
  change (nth (S i) (a :: removelast (a :: x)) 0) with (nth i (removelast (a :: x)) 0). apply removelast_nth. lia.
Qed.

Lemma hamming_tap m j : (1 < m)%nat -> hamming m j = tap m j.
Proof. intros H. unfold hamming, tap. replace (m =? 1)%nat with false by (symmetry; apply Nat.eqb_neq; lia). reflexivity. Qed.

Lemma magnitude_nth n x k : (k < n / 2)%nat -> nth k (magnitude n x) 0 = sqrt (dft_re n k x ^ 2 + dft_im n k x ^ 2).
Proof. intros H. unfold magnitude. rewrite (map_nth_lt _ _ _ 0%nat) by (rewrite seq_length; lia). now rewrite seq_nth by lia. Qed.
Lemma magnitude_len n x : length (magnitude n x) = (n / 2)%nat.
Proof. unfold magnitude. now rewrite map_length, seq_length. Qed.

Lemma fbank_values signal srate flen frate lo hi n p N :
  (1 < flen)%nat -> (flen <= length signal)%nat -> (0 < frate)%nat -> pow2_above flen N -> wide_filters n N lo hi ->
  exists rows (c : nat -> nat), fbank signal srate flen frate lo hi n p = Ok rows /\
    length rows = ((length signal - flen) / frate + 1)%nat /\ (forall r, In r rows -> length r = n) /\
    (forall i, (i <= n)%nat -> (c i < c (S i))%nat) /\
    (forall i, (i <= n + 1)%nat ->
       INR (c i) <= INR N * mel2hz (hz2mel lo + INR i * ((hz2mel hi - hz2mel lo) / INR (n + 1))) / 16000 < INR (c i) + 1) /\
    (forall t i, (t < length rows)%nat -> (i < n)%nat -> nth i (nth t rows []) 0 =
       ln (1 + sumf (fun k => amplitude p signal flen frate N t k * tri (INR (c i)) (INR (c (i + 1)%nat)) (INR (c (i + 2)%nat)) (INR k))
                 (seq 0 (N / 2)))).
Proof.
  intros Hf1 Hlen Hfr HN (Hn & Hlo & Hlt & Hhi & Hw).
  destruct (fft_len_above flen N ltac:(lia) HN) as (EN & HE & HN0).
  destruct (C99_filters_partial n N 16000 lo hi Hn HN0 HE ltac:(lra) Hlo Hlt ltac:(lra) Hw)
    as (bank & c & Eb & Lb & Ic & Bc & Fb & _ & _).
  destruct (C51_frames (preemphasis p signal) flen frate Hfr) as (H51 & _ & _). rewrite preemphasis_len in H51.
  destruct (H51 Hlen) as (fr & Efr & Lfr & Vfr & _). clear H51.
  assert (Lf : forall f, In f fr -> length f = flen).
  { intros f Hin. unfold frames in Efr. replace (frate =? 0)%nat with false in Efr by (symmetry; apply Nat.eqb_neq; lia).
    destruct (_ <? 0)%Z; [discriminate|]. injection Efr as <-. apply in_map_iff in Hin. destruct Hin as (i & <- & _).
    now rewrite map_length, seq_length. }
  exists (map (fun f => map (fun w => ln (dot (magnitude N (windowed (frame_values f))) (map fval_or w) + 1)) bank) fr), c.
  split; [|split; [|split; [|split; [exact Ic|split; [exact Bc|] ] ] ] ].
  - unfold fbank. destruct signal as [|x0 s]; [simpl in Hlen; lia|]. rewrite Efr. cbn [bindr].
    replace (flen =? 0)%nat with false by (symmetry; apply Nat.eqb_neq; lia). rewrite EN, Eb. reflexivity.
  - now rewrite map_length.
  - intros r Hr. apply in_map_iff in Hr. destruct Hr as (f & <- & _). now rewrite map_length.
  - intros t i Ht Hi. rewrite map_length in Ht. rewrite (map_nth_lt _ _ _ []) by auto. rewrite (map_nth_lt _ _ _ []) by lia.
    rewrite (Fb i Hi), map_map. f_equal. rewrite Rplus_comm. f_equal.
    assert (Lt : length (nth t fr []) = flen) by (apply Lf, nth_In; auto).
    set (y := windowed (frame_values (nth t fr []))).
    assert (Lv : length (frame_values (nth t fr [])) = flen) by (unfold frame_values; now rewrite map_length).
    assert (Ly : length y = flen) by (unfold y, windowed; rewrite map2_length, map_length, seq_length, Lv; lia).
    assert (Vy : forall j, (j < flen)%nat -> nth j y 0 = frame_sample p signal flen frate t j).
    { intros j Hj. unfold y, windowed. rewrite (map2_nth _ _ _ j 0 0 0) by (rewrite ?map_length, ?seq_length, ?Lv; lia).
      rewrite (map_nth_lt _ _ _ 0%nat) by (rewrite seq_length, Lv; lia). rewrite seq_nth by (rewrite Lv; lia). rewrite Lv.
      cbn [Nat.add]. rewrite hamming_tap by lia. unfold frame_sample. f_equal.
      unfold frame_values. rewrite (map_nth_lt _ _ _ None) by lia. destruct (Vfr t j Ht Hj) as (B & E). rewrite E.
      apply preemphasis_nth. exact B. }
    rewrite dot_nth by (rewrite magnitude_len, map_length, seq_length; reflexivity). rewrite magnitude_len.
    apply sumf_ext. intros k Hk. apply in_seq in Hk. rewrite magnitude_nth by lia.
    rewrite (map_nth_lt _ _ _ 0%nat) by (rewrite seq_length; lia). rewrite seq_nth by lia. cbn [fval_or Nat.add]. f_equal.
    unfold amplitude. f_equal. f_equal.
    + unfold dft_re. rewrite Ly. f_equal. apply sumf_ext. intros j Hj. apply in_seq in Hj. rewrite Vy by lia. reflexivity.
    + unfold dft_im. rewrite Ly. rewrite sumf_opp. rewrite <- Rsqr_pow2, <- Rsqr_neg, Rsqr_pow2. f_equal.
      apply sumf_ext. intros j Hj. apply in_seq in Hj. rewrite Vy by lia. reflexivity.
Qed.

Lemma floor_unique (a b : nat) x : INR a <= x < INR a + 1 -> INR b <= x < INR b + 1 -> a = b.
Proof.
  intros H1 H2. assert (INR a < INR (S b)) by (rewrite S_INR; lra). assert (INR b < INR (S a)) by (rewrite S_INR; lra).
  apply INR_lt in H. apply INR_lt in H0. lia.
Qed.

Lemma amplitude_nonneg p s flen frate N t k : 0 <= amplitude p s flen frate N t k.
Proof. apply sqrt_pos. Qed.
Lemma amplitude_scale p s a flen frate N t k :
  amplitude p (map (Rmult a) s) flen frate N t k = Rabs a * amplitude p s flen frate N t k.
Proof.
  unfold amplitude. rewrite <- sqrt_Rsqr_abs, <- sqrt_mult_alt by apply Rle_0_sqr. f_equal. unfold Rsqr.
  assert (E : forall (g : nat -> R), sumf (fun j => frame_sample p (map (Rmult a) s) flen frate t j * g j) (seq 0 flen) =
     a * sumf (fun j => frame_sample p s flen frate t j * g j) (seq 0 flen)).
  { intros g. rewrite <- sumf_scal_l. apply sumf_ext. intros j _. unfold frame_sample, emph. rewrite !nth_scale. ring. }
  rewrite (E (fun j => cos (2 * PI * INR j * INR k / INR N))), (E (fun j => sin (2 * PI * INR j * INR k / INR N))). ring.
Qed.

(** ** C158 *)
(** Every coefficient is the logarithm of one plus the amplitudes weighted by a
    triangle, whose corners are the bins of equally spaced mel values. *)
Theorem C158_coefficients : forall signal srate flen frate lo hi n p N,
  (1 < flen)%nat -> (flen <= length signal)%nat -> (0 < frate)%nat -> pow2_above flen N -> wide_filters n N lo hi ->
  exists rows (c : nat -> nat), fbank signal srate flen frate lo hi n p = Ok rows /\
    length rows = ((length signal - flen) / frate + 1)%nat /\ (forall r, In r rows -> length r = n) /\
    (forall i, (i <= n)%nat -> (c i < c (S i))%nat) /\
    (forall i, (i <= n + 1)%nat ->
       INR (c i) <= INR N * mel2hz (hz2mel lo + INR i * ((hz2mel hi - hz2mel lo) / INR (n + 1))) / 16000 < INR (c i) + 1) /\
    (forall t i, (t < length rows)%nat -> (i < n)%nat -> nth i (nth t rows []) 0 =
       ln (1 + sumf (fun k => amplitude p signal flen frate N t k * tri (INR (c i)) (INR (c (i + 1)%nat)) (INR (c (i + 2)%nat)) (INR k))
                 (seq 0 (N / 2))) /\
       0 <= nth i (nth t rows []) 0).
Proof.
  intros signal srate flen frate lo hi n p N H1 H2 H3 H4 H5.
  destruct (fbank_values signal srate flen frate lo hi n p N H1 H2 H3 H4 H5) as (rows & c & E & L & Lr & Ic & Bc & V).
  exists rows, c. repeat (split; [assumption|]). intros t i Ht Hi. split; [now apply V|]. rewrite (V t i Ht Hi).
  rewrite <- ln_1. apply ln_le_mono; [lra|].
  enough (0 <= sumf (fun k => amplitude p signal flen frate N t k * tri (INR (c i)) (INR (c (i + 1)%nat)) (INR (c (i + 2)%nat)) (INR k))
                 (seq 0 (N / 2))) by lra.
  apply sumf_nonneg. intros k _. apply Rmult_le_pos; [apply amplitude_nonneg|]. apply tri_bounds.
  - apply lt_INR. replace (i + 1)%nat with (S i) by lia. apply Ic. lia.
  - apply lt_INR. replace (i + 2)%nat with (S (i + 1)) by lia. apply Ic. lia.
Qed.

(** A change of volume multiplies the filter outputs; the sign of the signal
    plays no role. *)
Theorem C158_volume : forall signal a srate flen frate lo hi n p N,
  (1 < flen)%nat -> (flen <= length signal)%nat -> (0 < frate)%nat -> pow2_above flen N -> wide_filters n N lo hi ->
  exists rows rows', fbank signal srate flen frate lo hi n p = Ok rows /\
    fbank (map (Rmult a) signal) srate flen frate lo hi n p = Ok rows' /\
    (forall t i, (t < length rows)%nat -> (i < n)%nat ->
       let x := nth i (nth t rows []) 0 in let y := nth i (nth t rows' []) 0 in
       exp y - 1 = Rabs a * (exp x - 1) /\
       (Rabs a = 1 -> y = x) /\ (a = 0 -> y = 0) /\ (1 <= Rabs a -> x <= y <= x + ln (Rabs a))).
Proof.
  intros signal a srate flen frate lo hi n p N H1 H2 H3 H4 H5.
  destruct (C158_coefficients signal srate flen frate lo hi n p N H1 H2 H3 H4 H5) as (rows & c & E & L & _ & _ & Bc & V).
  destruct (C158_coefficients (map (Rmult a) signal) srate flen frate lo hi n p N H1) as (rows' & c' & E' & L' & _ & _ & Bc' & V');
    auto; [now rewrite map_length|].
  exists rows, rows'. split; [exact E|]. split; [exact E'|]. intros t i Ht Hi x y.
  assert (Ht' : (t < length rows')%nat) by (rewrite L', map_length; now rewrite L in Ht).
  destruct (V t i Ht Hi) as (Ex & Px). destruct (V' t i Ht' Hi) as (Ey & Py). fold x in Ex, Px. fold y in Ey, Py.
  assert (C : forall q, (q <= n + 1)%nat -> c' q = c q) by (intros q Hq; exact (floor_unique _ _ _ (Bc' q Hq) (Bc q Hq))).
  rewrite !C in Ey by lia.
  assert (Es : sumf (fun k => amplitude p (map (Rmult a) signal) flen frate N t k * tri (INR (c i)) (INR (c (i + 1)%nat)) (INR (c (i + 2)%nat)) (INR k)) (seq 0 (N / 2)) =
     Rabs a * sumf (fun k => amplitude p signal flen frate N t k * tri (INR (c i)) (INR (c (i + 1)%nat)) (INR (c (i + 2)%nat)) (INR k)) (seq 0 (N / 2))).
  { rewrite <- sumf_scal_l. apply sumf_ext. intros k _. rewrite amplitude_scale. ring. }
  rewrite Es in Ey. set (m := sumf _ (seq 0 (N / 2))) in *.
  assert (Hm : 0 <= m).
  { unfold m. apply sumf_nonneg. intros k _. apply Rmult_le_pos; [apply amplitude_nonneg|]. unfold tri. apply Rmax_l. }
  assert (0 <= Rabs a) by apply Rabs_pos. assert (0 <= Rabs a * m) by now apply Rmult_le_pos.
  assert (X : exp x = 1 + m) by (rewrite Ex; apply exp_ln; lra). assert (Y : exp y = 1 + Rabs a * m) by (rewrite Ey; apply exp_ln; lra).
  split; [rewrite X, Y; ring|]. split; [|split].
  - intros A. rewrite Ex, Ey, A. f_equal. ring.
  - intros ->. rewrite Ey, Rabs_R0, Rmult_0_l, Rplus_0_r. apply ln_1.
  - intros A. rewrite Ex, Ey. split.
    + apply ln_le_mono; [lra|]. assert (1 * m <= Rabs a * m) by (apply Rmult_le_compat_r; lra). lra.
    + rewrite <- ln_mult by lra. apply ln_le_mono; [lra|]. rewrite Rmult_plus_distr_r, Rmult_1_l, (Rmult_comm m). lra.
Qed.

(** Signals shorter than one frame give no coefficient or an error. *)
Theorem C158_short : forall signal srate flen frate lo hi n p N,
  (0 < flen)%nat -> (0 < frate)%nat -> pow2_above flen N -> wide_filters n N lo hi ->
  (signal = [] -> fbank signal srate flen frate lo hi n p = Err IndexError) /\
  ((0 < length signal < flen)%nat -> (flen <= length signal + frate)%nat -> fbank signal srate flen frate lo hi n p = Ok []) /\
  (signal <> [] -> (length signal + frate < flen)%nat -> fbank signal srate flen frate lo hi n p = Err ValueError).
Proof.
  intros signal srate flen frate lo hi n p N Hf Hfr HN (Hn & Hlo & Hlt & Hhi & Hw).
  destruct (fft_len_above flen N Hf HN) as (EN & HE & HN0).
  destruct (C99_filters_partial n N 16000 lo hi Hn HN0 HE ltac:(lra) Hlo Hlt ltac:(lra) Hw) as (bank & c & Eb & _).
  destruct (C51_frames (preemphasis p signal) flen frate Hfr) as (_ & H1 & H2). rewrite preemphasis_len in H1, H2.
  split; [|split].
  - intros ->. unfold fbank. replace (frate =? 0)%nat with false by (symmetry; apply Nat.eqb_neq; lia). reflexivity.
  - intros Hl Hl2. unfold fbank. destruct signal as [|x s]; [simpl in Hl; lia|]. rewrite H1 by lia. cbn [bindr].
    replace (flen =? 0)%nat with false by (symmetry; apply Nat.eqb_neq; lia). rewrite EN, Eb. reflexivity.
  - intros H0 Hl. unfold fbank. destruct signal as [|x s]; [easy|]. now rewrite H2 by lia.
Qed.

(** One frame of an impulse, one filter over bins 0, 1, 8: the spectrum is flat
    at 0.08 and the weights of the filter add up to 4. *)
Example ex_C158 : exists rows, fbank [1; 0; 0; 0; 0; 0; 0; 0] 16000 8 4 0 8000 1 0 = Ok rows /\
  length rows = 1%nat /\ nth 0 (nth 0 rows []) 0 = ln (132 / 100).
Proof.
  set (sig := [1; 0; 0; 0; 0; 0; 0; 0]).
  assert (M0 : hz2mel 0 = 0) by (unfold hz2mel; replace (1 + 0 / 700) with 1 by lra; rewrite ln_1; ring).
  set (y := exp (ln (87 / 7) / 2)).
  assert (Y2 : y * y = 87 / 7) by
    (unfold y; rewrite <- exp_plus; replace (ln (87 / 7) / 2 + ln (87 / 7) / 2) with (ln (87 / 7)) by lra; apply exp_ln; lra).
  assert (Y0 : 0 < y) by apply exp_pos. assert (Yl : 35 / 10 < y) by nra. assert (Yu : y < 36 / 10) by nra.
  assert (N16 : INR 16 = 16) by (simpl; ring).
  assert (M1 : mel2hz (hz2mel 8000 / 2) = 700 * (y - 1)).
  { unfold mel2hz, hz2mel, y. replace (1 + 8000 / 700) with (87 / 7) by lra. f_equal. f_equal. f_equal. field. }
  assert (W : wide_filters 1 16 0 8000).
  { unfold wide_filters. split; [lia|]. split; [lra|]. split; [lra|]. split; [lra|]. rewrite M0, N16. change (INR (1 + 1)) with 2.
    replace (0 + (hz2mel 8000 - 0) / 2) with (hz2mel 8000 / 2) by lra. rewrite M1. lra. }
  assert (P : pow2_above 8 16) by (exists 4%nat; simpl; lia).
  destruct (C158_coefficients sig 16000 8 4 0 8000 1 0 16 ltac:(lia) ltac:(simpl; lia) ltac:(lia) P W)
    as (rows & c & E & L & _ & _ & Bc & V).
  exists rows. split; [exact E|]. assert (L1 : length rows = 1%nat) by (rewrite L; reflexivity). split; [exact L1|].
  destruct (V 0%nat 0%nat ltac:(lia) ltac:(lia)) as (-> & _). cbn [Nat.add].
  assert (C0 : c 0%nat = 0%nat).
  { apply (floor_unique _ _ _ (Bc 0%nat ltac:(lia))). rewrite M0. change (INR 0) with 0. rewrite Rmult_0_l, Rplus_0_r.
    unfold mel2hz. replace (0 / 1127) with 0 by lra. rewrite exp_0. lra. }
  assert (C1 : c 1%nat = 1%nat).
  { apply (floor_unique _ _ _ (Bc 1%nat ltac:(lia))). rewrite M0, N16. change (INR (1 + 1)) with 2. change (INR 1) with 1.
    replace (0 + 1 * ((hz2mel 8000 - 0) / 2)) with (hz2mel 8000 / 2) by lra. rewrite M1. lra. }
  assert (C2 : c 2%nat = 8%nat).
  { apply (floor_unique _ _ _ (Bc 2%nat ltac:(lia))). rewrite M0, N16. change (INR (1 + 1)) with 2. change (INR 2) with 2.
    replace (0 + 2 * ((hz2mel 8000 - 0) / 2)) with (hz2mel 8000) by lra. rewrite mel_inverse by lra.
    replace (INR 8) with 8 by (simpl; ring). lra. }
  rewrite C0, C1, C2. f_equal.
  assert (A : forall k, amplitude 0 sig 8 4 16 0 k = 8 / 100).
  { intros k. unfold amplitude. unfold sumf, frame_sample, emph, sig. cbn [seq map rsum nth Nat.mul Nat.add Nat.sub].
    unfold tap. change (INR 0) with 0. unfold Rdiv. rewrite !Rmult_0_r, !Rmult_0_l, cos_0, sin_0.
    match goal with |- sqrt ?q = _ => replace q with ((8 * / 100) * (8 * / 100)) by (field) end. apply sqrt_square. lra. }
  rewrite (sumf_ext _ (fun k => 8 / 100 * tri (INR 0) (INR 1) (INR 8) (INR k))) by (intros k _; now rewrite A).
  rewrite sumf_scal_l. change (16 / 2)%nat with 8%nat. unfold sumf. cbn [seq map rsum].
  replace (INR 8) with 8 by (simpl; ring). replace (INR 7) with 7 by (simpl; ring). replace (INR 6) with 6 by (simpl; ring).
  replace (INR 5) with 5 by (simpl; ring). replace (INR 4) with 4 by (simpl; ring). replace (INR 3) with 3 by (simpl; ring).
  change (INR 2) with 2. change (INR 1) with 1. change (INR 0) with 0.
  rewrite (tri_left 0 1 8 0), (tri_left 0 1 8 1), !(tri_right 0 1 8) by lra. lra.
Qed.

Print Assumptions C158_coefficients.
Print Assumptions C158_volume.
Print Assumptions C158_short.

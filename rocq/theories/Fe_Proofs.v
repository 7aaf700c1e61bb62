(** Lemmas on the feature extraction. *)
From Coq Require Import Reals List Arith Bool ZArith Ascii Lia Lra Permutation Sorted.
From Verif Require Import Prelude Vec Gibbs Fe_Model Fe_Spec.
Import ListNotations.
Local Open Scope R_scope.

(** ** Filters *)
Lemma Rleb_spec a b : Rleb a b = true <-> a <= b.
Proof. unfold Rleb. destruct (Rle_dec a b); split; intros; auto; try discriminate; try contradiction. Qed.
Lemma Rleb_false a b : Rleb a b = false <-> b < a.
Proof. unfold Rleb. destruct (Rle_dec a b); split; intros; auto; try discriminate; try lra. Qed.

Lemma filter_interval (p : nat -> bool) n :
  (forall a m b, p a = true -> p b = true -> (a <= m <= b)%nat -> p m = true) ->
  exists a k, filter p (seq 0 n) = seq a k /\ (a + k <= n \/ k = 0)%nat.
Proof.
  intros Hp. induction n as [|n (a & k & E & B)].
  - exists 0%nat, 0%nat. split; auto.
  - rewrite seq_S, filter_app, E. simpl. destruct (p n) eqn:Pn.
    + destruct k as [|k].
      * exists n, 1%nat. split; [reflexivity|lia].
      * exists a, (S (S k)). assert (X : (a + S k = n)%nat).
        { destruct (Nat.eq_dec (a + S k) n) as [|Hne]; [auto|]. exfalso.
          assert (Ha : In (a + k)%nat (filter p (seq 0 n))) by (rewrite E; apply in_seq; lia).
          apply filter_In in Ha. destruct Ha as (Ha & Pa). apply in_seq in Ha.
          assert (Pm : p (a + S k)%nat = true) by (apply (Hp (a + k)%nat _ n); auto; lia).
          assert (Hi : In (a + S k)%nat (filter p (seq 0 n))) by (apply filter_In; split; [apply in_seq; lia|auto]).
          rewrite E in Hi. apply in_seq in Hi. lia. }
        split; [|lia]. rewrite (seq_S (S k)). now rewrite X.
    + rewrite app_nil_r. exists a, k. split; auto. lia.
Qed.

Definition side (den base : R) (up : bool) (f : nat) : fval :=
  if Req_EM_T den 0 then FNaN else FVal (/ den * (if up then INR f - base else base - INR f)).

Lemma linspace_affine (g : nat -> R) al be a k f : (forall x, g x = al + be * INR x) -> (a <= f < a + k)%nat ->
  linspace (g a) (g (a + k - 1)%nat) k (f - a) = g f.
Proof.
  intros Hg Hf. unfold linspace. destruct (Nat.eqb_spec k 1) as [->|Hk].
  - f_equal. lia.
  - rewrite !Hg. assert (K : INR (k - 1) <> 0) by (apply not_0_INR; lia).
    replace (a + k - 1)%nat with (a + (k - 1))%nat by lia. rewrite plus_INR, minus_INR by lia. field. exact K.
Qed.

Lemma write_side_eq lo hi den base up nbins vals :
  (exists f, (f < nbins)%nat /\ lo <= INR f <= hi) ->
  write_side lo hi den base up nbins vals =
  Ok (map (fun f => if Rleb lo (INR f) && Rleb (INR f) hi then side den base up f else nth f vals (FVal 0)) (seq 0 nbins)).
Proof.
  intros (f0 & Hf0 & Hlo & Hhi). unfold write_side.
  set (p := fun f => Rleb lo (INR f) && Rleb (INR f) hi).
  destruct (filter_interval p nbins) as (a & k & E & B).
  { intros x m y Px Py (H1 & H2). unfold p in *. apply andb_true_iff in Px. apply andb_true_iff in Py.
    apply andb_true_iff. rewrite !Rleb_spec in *. apply le_INR in H1. apply le_INR in H2. lra. }
  rewrite E. assert (In f0 (seq a k)).
  { rewrite <- E. apply filter_In. split; [apply in_seq; lia|]. unfold p. apply andb_true_iff. rewrite !Rleb_spec. auto. }
  apply in_seq in H. destruct k as [|k]; [lia|]. cbn [seq].
  f_equal. apply map_ext_in. intros f Hf. change (Rleb lo (INR f) && Rleb (INR f) hi) with (p f).
  destruct (p f) eqn:Pf; [|reflexivity].
  assert (Hin : In f (seq a (S k))) by (rewrite <- E; apply filter_In; auto). apply in_seq in Hin.
  assert (L : last (a :: seq (S a) k) 0%nat = (a + S k - 1)%nat).
  { change (a :: seq (S a) k) with (seq a (S k)). rewrite seq_S, last_last. lia. }
  rewrite L. change (a :: seq (S a) k) with (seq a (S k)). rewrite seq_length. unfold side_value, side.
  destruct (Req_EM_T den 0); [reflexivity|]. f_equal.
  destruct up.
  - apply (linspace_affine (fun f => / den * (INR f - base)) (- (/ den * base)) (/ den)); [intros; ring|lia].
  - apply (linspace_affine (fun f => / den * (base - INR f)) (/ den * base) (- / den)); [intros; ring|lia].
Qed.

Lemma write_side_none lo hi den base up nbins vals :
  (forall f, (f < nbins)%nat -> ~ lo <= INR f <= hi) -> write_side lo hi den base up nbins vals = Err IndexError.
Proof.
  intros H. unfold write_side. destruct (filter _ _) as [|f l] eqn:E; [reflexivity|].
  assert (Hin : In f (f :: l)) by now left. rewrite <- E in Hin. apply filter_In in Hin. destruct Hin as (Hf & P).
  apply in_seq in Hf. apply andb_true_iff in P. rewrite !Rleb_spec in P. destruct (H f); [lia|auto].
Qed.

Lemma triangle_eq center start end_ nbins :
  (exists f, (f < nbins)%nat /\ start <= INR f <= center) -> (exists f, (f < nbins)%nat /\ center <= INR f <= end_) ->
  triangle center start end_ nbins = Ok (map (fun f =>
    if Rleb center (INR f) && Rleb (INR f) end_ then side (end_ - center) end_ false f
    else if Rleb start (INR f) && Rleb (INR f) center then side (center - start) start true f
    else FVal 0) (seq 0 nbins)).
Proof.
  intros H1 H2. unfold triangle. rewrite write_side_eq by auto. cbn [bindr]. rewrite write_side_eq by auto.
  f_equal. apply map_ext_in. intros f Hf. apply in_seq in Hf. destruct (_ && _); [reflexivity|].
  rewrite (map_nth_lt _ _ _ 0%nat) by (rewrite seq_length; lia). rewrite seq_nth by lia.
  cbn [Nat.add]. destruct (_ && _); [reflexivity|].
  destruct (nth_in_or_default f (repeat (FVal 0) nbins) (FVal 0)) as [Hin|E]; auto. now apply repeat_spec in Hin.
Qed.

Lemma tri_left s c e x : s < c -> c < e -> s <= x <= c -> tri s c e x = (x - s) / (c - s).
Proof.
  intros H1 H2 H. unfold tri.
  assert (A : (x - s) / (c - s) <= 1) by (apply (Rmult_le_reg_r (c - s)); [lra|]; unfold Rdiv; rewrite Rmult_assoc, Rinv_l by lra; lra).
  assert (A0 : 0 <= (x - s) / (c - s)) by (apply Rmult_le_pos; [lra|]; left; apply Rinv_0_lt_compat; lra).
  assert (B : 1 <= (e - x) / (e - c)) by (apply (Rmult_le_reg_r (e - c)); [lra|]; unfold Rdiv; rewrite Rmult_assoc, Rinv_l by lra; lra).
  rewrite Rmin_left by lra. now rewrite Rmax_right.
Qed.
Lemma tri_right s c e x : s < c -> c < e -> c <= x <= e -> tri s c e x = (e - x) / (e - c).
Proof.
  intros H1 H2 H. unfold tri.
  assert (A : (e - x) / (e - c) <= 1) by (apply (Rmult_le_reg_r (e - c)); [lra|]; unfold Rdiv; rewrite Rmult_assoc, Rinv_l by lra; lra).
  assert (A0 : 0 <= (e - x) / (e - c)) by (apply Rmult_le_pos; [lra|]; left; apply Rinv_0_lt_compat; lra).
  assert (B : 1 <= (x - s) / (c - s)) by (apply (Rmult_le_reg_r (c - s)); [lra|]; unfold Rdiv; rewrite Rmult_assoc, Rinv_l by lra; lra).
  rewrite Rmin_right by lra. now rewrite Rmax_right.
Qed.
Lemma tri_out s c e x : s < c -> c < e -> x <= s \/ e <= x -> tri s c e x = 0.
Proof.
  intros H1 H2 H. unfold tri. apply Rmax_left.
  assert (I1 := Rinv_0_lt_compat (c - s)). assert (I2 := Rinv_0_lt_compat (e - c)). destruct H as [H|H].
  - eapply Rle_trans; [apply Rmin_l|]. unfold Rdiv. assert (0 <= (s - x) * / (c - s)) by (apply Rmult_le_pos; lra). lra.
  - eapply Rle_trans; [apply Rmin_r|]. unfold Rdiv. assert (0 <= (x - e) * / (e - c)) by (apply Rmult_le_pos; lra). lra.
Qed.
Lemma tri_bounds s c e x : s < c -> c < e -> 0 <= tri s c e x <= 1.
Proof.
  intros H1 H2. destruct (Rle_dec x s); [rewrite tri_out; auto; lra|].
  destruct (Rle_dec e x); [rewrite tri_out; auto; lra|].
  destruct (Rle_dec x c).
  - rewrite tri_left by lra. split; [apply Rmult_le_pos; [lra|]; left; apply Rinv_0_lt_compat; lra|].
    apply (Rmult_le_reg_r (c - s)); [lra|]. unfold Rdiv. rewrite Rmult_assoc, Rinv_l by lra. lra.
  - rewrite tri_right by lra. split; [apply Rmult_le_pos; [lra|]; left; apply Rinv_0_lt_compat; lra|].
    apply (Rmult_le_reg_r (e - c)); [lra|]. unfold Rdiv. rewrite Rmult_assoc, Rinv_l by lra. lra.
Qed.

Lemma triangle_tri center start end_ nbins : start < center -> center < end_ ->
  (exists f, (f < nbins)%nat /\ start <= INR f <= center) -> (exists f, (f < nbins)%nat /\ center <= INR f <= end_) ->
  triangle center start end_ nbins = Ok (map (fun f => FVal (tri start center end_ (INR f))) (seq 0 nbins)).
Proof.
  intros H1 H2 E1 E2. rewrite triangle_eq by auto. f_equal. apply map_ext. intros f.
  unfold side. destruct (Req_EM_T (end_ - center) 0); [lra|]. destruct (Req_EM_T (center - start) 0); [lra|].
  destruct (Rleb center (INR f)) eqn:A; [apply Rleb_spec in A|apply Rleb_false in A]; cbn [andb].
  - destruct (Rleb (INR f) end_) eqn:B; [apply Rleb_spec in B|apply Rleb_false in B]; cbn [andb].
    + rewrite tri_right by lra. f_equal. unfold Rdiv. ring.
    + replace (Rleb start (INR f) && Rleb (INR f) center) with false.
      * rewrite tri_out by lra. reflexivity.
      * symmetry. apply andb_false_iff. right. apply Rleb_false. lra.
  - destruct (Rleb start (INR f)) eqn:B; [apply Rleb_spec in B|apply Rleb_false in B]; cbn [andb].
    + rewrite (proj2 (Rleb_spec (INR f) center)) by lra. rewrite tri_left by lra. f_equal. unfold Rdiv. ring.
    + rewrite tri_out by lra. reflexivity.
Qed.

(** ** Centres *)
Lemma Int_part_mono a b : a <= b -> (Int_part a <= Int_part b)%Z.
Proof.
  intros H. destruct (base_Int_part a) as (A1 & A2). destruct (base_Int_part b) as (B1 & B2).
  apply Z.lt_succ_r. apply lt_IZR. rewrite succ_IZR. lra.
Qed.
Lemma Int_part_uniq r z : r - 1 < IZR z <= r -> z = Int_part r.
Proof.
  intros (H1 & H2). destruct (base_Int_part r) as (A1 & A2).
  assert (z < Int_part r + 1)%Z by (apply lt_IZR; rewrite plus_IZR; lra).
  assert (Int_part r < z + 1)%Z by (apply lt_IZR; rewrite plus_IZR; lra). lia.
Qed.
Lemma Int_part_gap a b : a + 1 <= b -> (Int_part a < Int_part b)%Z.
Proof.
  intros H. destruct (base_Int_part a) as (A1 & A2). destruct (base_Int_part b) as (B1 & B2).
  apply Z.lt_nge. intros X. apply IZR_le in X. lra.
Qed.
Lemma mel_inverse f : -700 < f -> mel2hz (hz2mel f) = f.
Proof.
  intros H. unfold mel2hz, hz2mel. replace (1127 * ln (1 + f / 700) / 1127) with (ln (1 + f / 700)) by field.
  rewrite exp_ln by lra. field.
Qed.
Lemma mel2hz_incr a b : a < b -> mel2hz a < mel2hz b.
Proof. intros H. unfold mel2hz. assert (exp (a / 1127) < exp (b / 1127)) by (apply exp_increasing; lra). lra. Qed.
Lemma hz2mel_incr a b : -700 < a -> a < b -> hz2mel a < hz2mel b.
Proof. intros H0 H. unfold hz2mel. assert (ln (1 + a / 700) < ln (1 + b / 700)) by (apply ln_increasing; lra). lra. Qed.

(** Centre i before alignment, Mel scale *)
Definition raw_center (n N : nat) (srate lo hi : R) (i : nat) : R :=
  INR N * mel2hz (linspace (hz2mel lo) (hz2mel hi) (n + 2) i) / srate.

Lemma centers_nth n N srate lo hi align i : (i < n + 2)%nat ->
  nth i (centers n N srate lo hi hz2mel mel2hz align) 0 =
  if align then IZR (Int_part (raw_center n N srate lo hi i)) else raw_center n N srate lo hi i.
Proof.
  intros Hi. unfold centers. rewrite (map_nth_lt _ _ _ 0%nat) by (rewrite seq_length; lia). rewrite seq_nth by lia. reflexivity.
Qed.

Lemma raw_center_step n N srate lo hi i : 0 < srate ->
  raw_center n N srate lo hi (S i) - raw_center n N srate lo hi i =
  exp (INR i * ((hz2mel hi - hz2mel lo) / INR (n + 1)) / 1127) * (raw_center n N srate lo hi 1 - raw_center n N srate lo hi 0).
Proof.
  intros Hs. unfold raw_center, linspace. replace (n + 2 =? 1)%nat with false by (symmetry; apply Nat.eqb_neq; lia).
  replace (n + 2 - 1)%nat with (n + 1)%nat by lia. set (st := (hz2mel hi - hz2mel lo) / INR (n + 1)).
  set (l := hz2mel lo). unfold mel2hz. rewrite S_INR. change (INR 1) with 1. change (INR 0) with 0.
  replace ((l + (INR i + 1) * st) / 1127) with (l / 1127 + (INR i * st / 1127 + st / 1127)) by field.
  replace ((l + INR i * st) / 1127) with (l / 1127 + INR i * st / 1127) by field.
  replace ((l + 1 * st) / 1127) with (l / 1127 + st / 1127) by field.
  replace ((l + 0 * st) / 1127) with (l / 1127) by field.
  rewrite !exp_plus. field. lra.
Qed.

Lemma raw_center_ends n N srate lo hi : -700 < lo -> -700 < hi ->
  raw_center n N srate lo hi 0 = INR N * lo / srate /\ raw_center n N srate lo hi (n + 1) = INR N * hi / srate.
Proof.
  intros Hl Hh. unfold raw_center, linspace. replace (n + 2 =? 1)%nat with false by (symmetry; apply Nat.eqb_neq; lia).
  replace (n + 2 - 1)%nat with (n + 1)%nat by lia. split.
  - change (INR 0) with 0. rewrite Rmult_0_l, Rplus_0_r. now rewrite mel_inverse.
  - replace (hz2mel lo + INR (n + 1) * ((hz2mel hi - hz2mel lo) / INR (n + 1))) with (hz2mel hi).
    + now rewrite mel_inverse.
    + field. apply not_0_INR. lia.
Qed.

Lemma raw_center_incr n N srate lo hi i : 0 < srate -> -700 < lo -> lo < hi -> (0 < N)%nat ->
  raw_center n N srate lo hi i < raw_center n N srate lo hi (S i).
Proof.
  intros Hs Hl H HN. assert (HM := hz2mel_incr lo hi Hl H).
  assert (In1 : 0 < INR (n + 1)) by (apply lt_0_INR; lia). assert (INN : 0 < INR N) by (apply lt_0_INR; lia).
  assert (X : raw_center n N srate lo hi 0 < raw_center n N srate lo hi 1).
  { unfold raw_center, linspace. replace (n + 2 =? 1)%nat with false by (symmetry; apply Nat.eqb_neq; lia).
    replace (n + 2 - 1)%nat with (n + 1)%nat by lia. unfold Rdiv at 1 3. apply Rmult_lt_compat_r; [now apply Rinv_0_lt_compat|].
    apply Rmult_lt_compat_l; [auto|]. apply mel2hz_incr. change (INR 0) with 0. change (INR 1) with 1.
    assert (0 < (hz2mel hi - hz2mel lo) / INR (n + 1)) by (apply Rdiv_lt_0_compat; lra). lra. }
  assert (E := raw_center_step n N srate lo hi i Hs).
  assert (0 < exp (INR i * ((hz2mel hi - hz2mel lo) / INR (n + 1)) / 1127)) by apply exp_pos.
  assert (0 < exp (INR i * ((hz2mel hi - hz2mel lo) / INR (n + 1)) / 1127) *
     (raw_center n N srate lo hi 1 - raw_center n N srate lo hi 0)) by (apply Rmult_lt_0_compat; lra). lra.
Qed.

(** ** Framing *)
Lemma fft_len_log2 flen : (0 < flen)%nat -> fft_len flen = (2 ^ (Nat.log2 flen + 1))%nat.
Proof.
  intros H. unfold fft_len. f_equal. destruct (Nat.log2_spec flen H) as (L1 & L2).
  set (k := Nat.log2 flen) in *. assert (P2 : 0 < ln 2) by (rewrite <- ln_1; apply ln_increasing; lra).
  apply le_INR in L1. apply lt_INR in L2. rewrite pow_INR in L1, L2. change (INR 2) with (1 + 1) in L1, L2.
  replace (1 + 1) with 2 in L1, L2 by ring. assert (In0 : 0 < INR flen) by (apply lt_0_INR; auto).
  assert (A : INR k * ln 2 <= ln (INR flen)).
  { rewrite <- ln_pow by lra. destruct L1 as [L1| <-]; [left; apply ln_increasing; auto; apply pow_lt; lra|right; auto]. }
  assert (B : ln (INR flen) < (INR k + 1) * ln 2).
  { rewrite <- S_INR, <- ln_pow by lra. now apply ln_increasing. }
  assert (E : Z.of_nat (k + 1) = Int_part (ln (INR flen) / ln 2 + 1)).
  { apply Int_part_uniq. rewrite <- INR_IZR_INZ, plus_INR. change (INR 1) with 1.
    assert (INR k <= ln (INR flen) / ln 2) by (apply (Rmult_le_reg_r (ln 2)); auto; unfold Rdiv; rewrite Rmult_assoc, Rinv_l by lra; lra).
    assert (ln (INR flen) / ln 2 < INR k + 1) by (apply (Rmult_lt_reg_r (ln 2)); auto; unfold Rdiv; rewrite Rmult_assoc, Rinv_l by lra; lra).
    lra. }
  rewrite <- E. lia.
Qed.

(** ** Derivatives *)
Lemma sumf_rev (f : nat -> R) n : sumf (fun k => f (n - k)%nat) (seq 0 (n + 1)) = sumf f (seq 0 (n + 1)).
Proof.
  rewrite <- (sumf_map (fun k => (n - k)%nat) f). apply sumf_perm.
  replace (map (fun k => (n - k)%nat) (seq 0 (n + 1))) with (rev (seq 0 (n + 1))); [apply Permutation_sym, Permutation_rev|].
  apply (nth_ext _ _ 0%nat 0%nat); [now rewrite rev_length, map_length|].
  intros k Hk. rewrite rev_length, seq_length in Hk. rewrite rev_nth, seq_length by (rewrite seq_length; lia).
  rewrite (map_nth_lt _ _ _ 0%nat) by (rewrite seq_length; lia). rewrite !seq_nth by lia. lia.
Qed.

Definition offs (w k : nat) : R := INR k - INR w.
Definition sq (w : nat) : R := sumf (fun k => offs w k ^ 2) (seq 0 (2 * w + 1)).

Lemma offs_rev w k : (k <= 2 * w)%nat -> offs w (2 * w - k) = - offs w k.
Proof. intros H. unfold offs. rewrite minus_INR, mult_INR by lia. simpl. ring. Qed.
Lemma sum_offs w : sumf (offs w) (seq 0 (2 * w + 1)) = 0.
Proof.
  assert (E := sumf_rev (offs w) (2 * w)).
  rewrite (sumf_ext (fun k => offs w (2 * w - k)) (fun k => - offs w k)) in E.
  - rewrite sumf_opp in E. lra.
  - intros k Hk. apply in_seq in Hk. apply offs_rev. lia.
Qed.
Lemma sq_pos w : (0 < w)%nat -> 0 < sq w.
Proof.
  intros H. unfold sq. apply (sumf_pos _ _ 0%nat).
  - intros k _. apply pow2_ge_0.
  - apply in_seq. lia.
  - unfold offs. assert (0 < INR w) by (apply lt_0_INR; auto). change (INR 0) with 0. nra.
Qed.

Lemma dfilter_length w : length (dfilter w) = (2 * w + 1)%nat.
Proof. unfold dfilter. now rewrite !map_length, seq_length. Qed.
Lemma dfilter_nth w k : (k < 2 * w + 1)%nat -> nth k (dfilter w) 0 = - offs w k / (2 * sq w).
Proof.
  intros Hk. unfold dfilter. set (d := map (fun k => INR w - INR k) (seq 0 (2 * w + 1))).
  assert (L : length d = (2 * w + 1)%nat) by (unfold d; now rewrite map_length, seq_length).
  assert (N : forall j, (j < 2 * w + 1)%nat -> nth j d 0 = - offs w j).
  { intros j Hj. unfold d. rewrite (map_nth_lt _ _ _ 0%nat) by (rewrite seq_length; lia). rewrite seq_nth by lia. unfold offs. ring_simplify. now rewrite Nat.add_0_l. }
  rewrite (map_nth_lt _ _ _ 0) by lia. rewrite N by auto. f_equal. f_equal. f_equal.
  rewrite dot_nth, L by reflexivity. apply sumf_ext. intros j Hj. apply in_seq in Hj.
  rewrite N by lia. ring.
Qed.

Lemma padded_nth (fea : list (list R)) w i : fea <> [] -> (i < length fea + 2 * w)%nat ->
  nth i (repeat (hd [] fea) w ++ fea ++ repeat (last fea []) w) [] = nth (Nat.min (i - w) (length fea - 1)) fea [].
Proof.
  intros Hne Hi. assert (Hl : (0 < length fea)%nat) by (destruct fea; [congruence|simpl; lia]).
  assert (Rp : forall (r : list R) j m, (j < m)%nat -> nth j (repeat r m) [] = r).
  { intros r j m Hj. rewrite (nth_indep _ [] r), nth_repeat by (rewrite repeat_length; lia). reflexivity. }
  destruct (Nat.lt_ge_cases i w) as [H|H].
  - rewrite app_nth1 by (rewrite repeat_length; lia). rewrite Rp by auto. replace (i - w)%nat with 0%nat by lia.
    rewrite Nat.min_0_l. now destruct fea.
  - rewrite app_nth2 by (rewrite repeat_length; lia). rewrite repeat_length.
    destruct (Nat.lt_ge_cases (i - w) (length fea)) as [H1|H1].
    + rewrite app_nth1 by auto. f_equal. lia.
    + rewrite app_nth2 by auto. rewrite Rp by lia. rewrite Nat.min_r by lia.
      destruct (exists_last Hne) as (l & a & ->). rewrite last_last, app_length. simpl.
      rewrite app_nth2 by lia. replace (length l + 1 - 1 - length l)%nat with 0%nat by lia. reflexivity.
Qed.

Lemma delta_length w dim fea : length (delta w dim fea) = length fea.
Proof. unfold delta. now rewrite map_length, seq_length. Qed.
Lemma delta_matrix w dim fea : matrix dim (delta w dim fea).
Proof.
  unfold delta, matrix. apply Forall_forall. intros r Hr. apply in_map_iff in Hr. destruct Hr as (t & <- & _).
  unfold lfilter. now rewrite map_length, seq_length.
Qed.

Lemma delta_nth w dim fea t c : (t < length fea)%nat -> (c < dim)%nat ->
  nth c (nth t (delta w dim fea) []) 0 =
  sumf (fun k => offs w k / (2 * sq w) * clamped fea c t k w) (seq 0 (2 * w + 1)).
Proof.
  intros Ht Hc. unfold delta. rewrite (map_nth_lt _ _ _ 0%nat) by (rewrite seq_length; lia). rewrite seq_nth by lia.
  unfold lfilter. rewrite (map_nth_lt _ _ _ 0%nat) by (rewrite seq_length; lia). rewrite seq_nth by lia. cbn [Nat.add].
  rewrite dfilter_length. rewrite <- (sumf_rev (fun k => offs w k / (2 * sq w) * clamped fea c t k w)).
  apply sumf_ext. intros k Hk. apply in_seq in Hk. rewrite (proj2 (Nat.leb_le k (2 * w + t))) by lia.
  rewrite dfilter_nth by lia. rewrite offs_rev by lia. f_equal. unfold clamped.
  assert (Hne : fea <> []) by (intros ->; simpl in Ht; lia). rewrite padded_nth by (auto; lia).
  f_equal. f_equal. f_equal. lia.
Qed.

(** ** Corpus statistics *)
Lemma col_sums_length dim f utt : length (col_sums dim f utt) = dim.
Proof. unfold col_sums. now rewrite map_length, seq_length. Qed.
Lemma col_sums_nth dim f utt c : (c < dim)%nat -> nth c (col_sums dim f utt) 0 = sumf (fun r => f (nth c r 0)) utt.
Proof.
  intros H. unfold col_sums. rewrite (map_nth_lt _ _ _ 0%nat) by (rewrite seq_length; lia). rewrite seq_nth by lia. reflexivity.
Qed.

Definition acc_step (dim : nat) : list R * list R * nat -> list (list R) -> list R * list R * nat :=
  fun '(s, s2, n) utt => (vadd s (col_sums dim (fun x => x) utt), vadd s2 (col_sums dim (fun x => x ^ 2) utt), (n + length utt)%nat).

Lemma acc_fold dim utts : forall s s2 n, length s = dim -> length s2 = dim ->
  let '(s', s2', n') := fold_left (acc_step dim) utts (s, s2, n) in
  length s' = dim /\ length s2' = dim /\ n' = (n + length (concat utts))%nat /\
  forall c, (c < dim)%nat -> nth c s' 0 = nth c s 0 + sumf (fun r => nth c r 0) (concat utts) /\
    nth c s2' 0 = nth c s2 0 + sumf (fun r => nth c r 0 ^ 2) (concat utts).
Proof.
  induction utts as [|utt utts IH]; intros s s2 n H1 H2; cbn [fold_left].
  - simpl. repeat split; auto; rewrite sumf_nil; ring.
  - unfold acc_step at 2.
    specialize (IH (vadd s (col_sums dim (fun x => x) utt)) (vadd s2 (col_sums dim (fun x => x ^ 2) utt)) (n + length utt)%nat).
    destruct (fold_left _ _ _) as [[s' s2'] n'].
    destruct IH as (L1 & L2 & E & X); [unfold vadd; rewrite map2_length, col_sums_length; lia ..|].
    repeat split; auto.
    + rewrite E. cbn [concat]. rewrite app_length. lia.
    + destruct (X c H) as (-> & _). unfold vadd. rewrite (map2_nth Rplus _ _ c 0 0 0) by (rewrite ?col_sums_length; lia).
      rewrite col_sums_nth by auto. cbn [concat]. rewrite sumf_app. ring.
    + destruct (X c H) as (_ & ->). unfold vadd. rewrite (map2_nth Rplus _ _ c 0 0 0) by (rewrite ?col_sums_length; lia).
      rewrite col_sums_nth by auto. cbn [concat]. rewrite sumf_app. ring.
Qed.

(** ** Cosines *)
Lemma sum_cos theta n : 2 * sin (theta / 2) * sumf (fun k => cos (theta * (INR k + / 2))) (seq 0 n) = sin (theta * INR n).
Proof.
  induction n as [|n IH].
  - cbn [seq]. rewrite sumf_nil. change (INR 0) with 0. rewrite (Rmult_0_r theta), sin_0. ring.
  - rewrite seq_S, sumf_app, Rmult_plus_distr_l, IH, sumf_cons, sumf_nil. cbn [Nat.add].
    replace (theta * INR n) with (theta * (INR n + / 2) - theta / 2) by field.
    rewrite S_INR. replace (theta * (INR n + 1)) with (theta * (INR n + / 2) + theta / 2) by field.
    rewrite sin_minus, sin_plus. ring.
Qed.

Lemma sin_nat_pi k : sin (INR k * PI) = 0.
Proof.
  rewrite INR_IZR_INZ. apply sin_eq_0_1. now exists (Z.of_nat k).
Qed.

(** Sum over the filters of cos (k pi / N (n + 1/2)), 0 < k < 2N *)
Lemma sum_cos_zero N k : (0 < k < 2 * N)%nat ->
  sumf (fun n => cos (INR k * PI / INR N * (INR n + / 2))) (seq 0 N) = 0.
Proof.
  intros Hk. assert (HN : 0 < INR N) by (apply lt_0_INR; lia).
  assert (E := sum_cos (INR k * PI / INR N) N).
  replace (INR k * PI / INR N * INR N) with (INR k * PI) in E by (field; lra). rewrite sin_nat_pi in E.
  assert (P := PI_RGT_0). assert (S : 0 < sin (INR k * PI / INR N / 2)).
  { assert (0 < INR k) by (apply lt_0_INR; lia).
    assert (INR k < 2 * INR N) by (replace 2 with (INR 2) by reflexivity; rewrite <- mult_INR; apply lt_INR; lia).
    apply sin_gt_0.
    - apply Rdiv_lt_0_compat; [|lra]. apply Rdiv_lt_0_compat; [nra|auto].
    - apply (Rmult_lt_reg_r (2 * INR N)); [lra|]. replace (INR k * PI / INR N / 2 * (2 * INR N)) with (INR k * PI) by (field; lra). nra. }
  apply (Rmult_eq_reg_l (2 * sin (INR k * PI / INR N / 2))); [|lra]. rewrite E. ring.
Qed.

Lemma dct_orthogonal N k l : (k + 1 < N)%nat -> (l + 1 < N)%nat ->
  sumf (fun n => dct_base N n k * dct_base N n l) (seq 0 N) = if (k =? l)%nat then INR N / 2 else 0.
Proof.
  intros Hk Hl. assert (HN : 0 < INR N) by (apply lt_0_INR; lia).
  rewrite (sumf_ext _ (fun n => / 2 * cos (INR (k + l + 2) * PI / INR N * (INR n + / 2)) +
     / 2 * cos (INR (if (k <? l)%nat then l - k else k - l) * PI / INR N * (INR n + / 2)))).
  - rewrite sumf_plus, !sumf_scal_l. rewrite sum_cos_zero by lia. destruct (Nat.eqb_spec k l) as [->|Hne].
    + rewrite Nat.ltb_irrefl, Nat.sub_diag. rewrite (sumf_ext _ (fun _ => 1)).
      * rewrite sumf_const, seq_length. field.
      * intros n _. change (INR 0) with 0. replace (0 * PI / INR N * (INR n + / 2)) with 0 by (field; lra). apply cos_0.
    + rewrite sum_cos_zero; [ring|]. destruct (Nat.ltb_spec k l); lia.
  - intros n _. unfold dct_base. set (x := PI / INR N * (INR n + / 2)).
    replace ((INR k + 1) * PI / INR N * (INR n + / 2)) with ((INR k + 1) * x) by (unfold x; field; lra).
    replace ((INR l + 1) * PI / INR N * (INR n + / 2)) with ((INR l + 1) * x) by (unfold x; field; lra).
    replace (INR (k + l + 2) * PI / INR N * (INR n + / 2)) with ((INR k + 1) * x + (INR l + 1) * x)
      by (rewrite !plus_INR; unfold x; simpl; field; lra).
    assert (C : cos (INR (if (k <? l)%nat then (l - k)%nat else (k - l)%nat) * PI / INR N * (INR n + / 2)) =
       cos ((INR k + 1) * x - (INR l + 1) * x)).
    { destruct (Nat.ltb_spec k l).
      - rewrite <- cos_neg. f_equal. rewrite minus_INR by lia. unfold x. field. lra.
      - f_equal. rewrite minus_INR by lia. unfold x. field. lra. }
    rewrite C, cos_plus, cos_minus. field.
Qed.

Lemma dct_zero_column N n : (0 < N)%nat -> dct_base N n (N - 1) = 0.
Proof.
  intros H. unfold dct_base. assert (HN : 0 < INR N) by (apply lt_0_INR; lia). rewrite minus_INR by lia. change (INR 1) with 1.
  replace ((INR N - 1 + 1) * PI / INR N * (INR n + / 2)) with (PI / 2 + INR n * PI) by (field; lra).
  rewrite cos_plus, cos_PI2, sin_nat_pi. ring.
Qed.
Lemma dct_sum_zero N m : (m + 1 < 2 * N)%nat -> sumf (fun n => dct_base N n m) (seq 0 N) = 0.
Proof.
  intros H. unfold dct_base. replace (INR m + 1) with (INR (m + 1)) by (rewrite plus_INR; reflexivity).
  apply sum_cos_zero. lia.
Qed.

(** ** Sorting and iterating *)
Lemma str_leb_total a b : str_leb a b = true \/ str_leb b a = true.
Proof.
  revert b. induction a as [|x a IH]; intros [|y b]; simpl; auto.
  destruct (Nat.ltb_spec (nat_of_ascii x) (nat_of_ascii y)), (Nat.ltb_spec (nat_of_ascii y) (nat_of_ascii x)); auto; lia.
Qed.
Lemma insert_perm x l : Permutation (x :: l) (insert x l).
Proof.
  induction l as [|y l IH]; simpl; [auto|]. destruct (str_leb x y); [auto|].
  eapply Permutation_trans; [apply perm_swap|]. now constructor.
Qed.
Lemma sorted_perm l : Permutation l (sorted l).
Proof.
  induction l as [|x l IH]; simpl; [auto|]. eapply Permutation_trans; [|apply insert_perm]. now constructor.
Qed.
Lemma insert_sorted x l : LocallySorted (fun a b => str_leb a b = true) l -> LocallySorted (fun a b => str_leb a b = true) (insert x l).
Proof.
  induction 1 as [|y|y z l H IH Hyz]; simpl.
  - constructor.
  - destruct (str_leb x y) eqn:E; constructor; auto; try constructor. destruct (str_leb_total x y); congruence.
  - destruct (str_leb x y) eqn:E; [constructor; auto; constructor; auto|].
    assert (Yx : str_leb y x = true) by (destruct (str_leb_total x y); congruence).
    cbn [insert] in IH. destruct (str_leb x z) eqn:E2; constructor; auto.
Qed.
Lemma sorted_sorted l : LocallySorted (fun a b => str_leb a b = true) (sorted l).
Proof. induction l; simpl; [constructor|now apply insert_sorted]. Qed.

Lemma loop_all {A} (fea : list ascii -> A) utts : forall fuel idx, (length utts - idx < fuel)%nat -> (idx <= length utts)%nat ->
  loop fuel utts fea idx = (map (fun u => (u, fea u)) (skipn idx utts), length utts).
Proof.
  induction fuel as [|fuel IH]; intros idx Hf Hi; [lia|]. cbn [loop]. unfold next.
  destruct (nth_error utts idx) as [u|] eqn:E.
  - assert (idx < length utts)%nat by (apply nth_error_Some; congruence). rewrite IH by lia. f_equal.
    assert (S : skipn idx utts = u :: skipn (S idx) utts).
    { clear -E. revert idx E. induction utts as [|v utts IHu]; intros [|idx] E; simpl in *; try discriminate.
      - now inversion E.
      - now rewrite (IHu idx E). }
    now rewrite S.
  - apply nth_error_None in E. rewrite skipn_all2 by lia. simpl. f_equal. lia.
Qed.

(** ** Spectra *)
Lemma mean_shift c l : l <> [] -> mean (map (fun x => x + c) l) = mean l + c.
Proof.
  intros H. unfold mean. rewrite map_length. rewrite rsum_sumf, sumf_map, sumf_plus, sumf_const, <- rsum_sumf. field.
  apply not_0_INR. destruct l; [congruence|simpl; lia].
Qed.
Lemma remove_dc_shift c l : remove_dc (map (fun x => x + c) l) = remove_dc l.
Proof.
  destruct l as [|a l]; [reflexivity|]. unfold remove_dc. rewrite mean_shift by discriminate. rewrite map_map.
  apply map_ext. intros x. ring.
Qed.
Lemma mean_scale a l : mean (map (Rmult a) l) = a * mean l.
Proof. unfold mean. rewrite map_length, rsum_sumf, sumf_map, sumf_scal_l, <- rsum_sumf. unfold Rdiv. ring. Qed.
Lemma remove_dc_scale a l : remove_dc (map (Rmult a) l) = map (Rmult a) (remove_dc l).
Proof. unfold remove_dc. rewrite mean_scale, !map_map. apply map_ext. intros x. ring. Qed.
Lemma frames_map g l flen frate :
  frames (map g l) flen frate = bindr (frames l flen frate) (fun fr => Ok (map (map (option_map g)) fr)).
Proof.
  unfold frames. rewrite map_length. destruct (frate =? 0)%nat; [reflexivity|]. destruct (_ <? 0)%Z; [reflexivity|].
  cbn [bindr]. f_equal. rewrite map_map. apply map_ext. intros i. rewrite map_map. apply map_ext. intros j.
  apply nth_error_map.
Qed.
Lemma frame_values_scale a f : frame_values (map (option_map (Rmult a)) f) = map (Rmult a) (frame_values f).
Proof. unfold frame_values. rewrite !map_map. apply map_ext. intros [r|]; simpl; ring. Qed.
Lemma removelast_map {A B} (g : A -> B) l : removelast (map g l) = map g (removelast l).
Proof. induction l as [|x l IH]; [reflexivity|]. destruct l; [reflexivity|]. cbn [map removelast] in *. now rewrite IH. Qed.
Lemma map2_scale (f : R -> R -> R) (x y : list R) a : (forall u v, f (a * u) (a * v) = a * f u v) ->
  map2 f (map (Rmult a) x) (map (Rmult a) y) = map (Rmult a) (map2 f x y).
Proof. intros H. revert y. induction x as [|u x IH]; intros [|v y]; simpl; auto. now rewrite H, IH. Qed.
Lemma preemphasis_scale p a x : preemphasis p (map (Rmult a) x) = map (Rmult a) (preemphasis p x).
Proof.
  unfold preemphasis. rewrite <- (map2_scale (fun u v => u - p * v)) by (intros; ring). f_equal.
  destruct x as [|u x]; [reflexivity|]. cbn [map]. f_equal. rewrite <- removelast_map. reflexivity.
Qed.
Lemma windowed_scale a x : windowed (map (Rmult a) x) = map (Rmult a) (windowed x).
Proof.
  unfold windowed. rewrite map_length. generalize (map (hamming (length x)) (seq 0 (length x))). intros h. revert h.
  induction x as [|u x IH]; intros [|v h]; simpl; auto. rewrite IH. f_equal. ring.
Qed.
Lemma nth_scale a x j : nth j (map (Rmult a) x) 0 = a * nth j x 0.
Proof. revert j. induction x as [|u x IH]; intros [|j]; simpl; auto; ring. Qed.
Lemma magnitude_scale n a x : magnitude n (map (Rmult a) x) = map (Rmult (Rabs a)) (magnitude n x).
Proof.
  unfold magnitude. rewrite map_map. apply map_ext. intros k.
  assert (E1 : dft_re n k (map (Rmult a) x) = a * dft_re n k x).
  { unfold dft_re. rewrite map_length, <- sumf_scal_l. apply sumf_ext. intros j _. rewrite nth_scale. ring. }
  assert (E2 : dft_im n k (map (Rmult a) x) = a * dft_im n k x).
  { unfold dft_im. rewrite map_length, <- sumf_scal_l. apply sumf_ext. intros j _. rewrite nth_scale. ring. }
  rewrite E1, E2. replace ((a * dft_re n k x) ^ 2 + (a * dft_im n k x) ^ 2) with (a ^ 2 * (dft_re n k x ^ 2 + dft_im n k x ^ 2)) by ring.
  assert (0 <= dft_re n k x ^ 2) by apply pow2_ge_0. assert (0 <= dft_im n k x ^ 2) by apply pow2_ge_0.
  rewrite sqrt_mult by (try apply pow2_ge_0; lra). f_equal. rewrite <- sqrt_Rsqr_abs. f_equal. unfold Rsqr. ring.
Qed.

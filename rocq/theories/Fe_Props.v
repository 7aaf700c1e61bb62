(** Feature extraction: C50-C53, C99-C102. *)
From Coq Require Import String Reals List Arith Bool ZArith Ascii Lia Lra Permutation Sorted.
From Verif Require Import Prelude Vec Gibbs Fe_Model Fe_Spec Fe_Proofs.
Import ListNotations.
Local Open Scope R_scope.

(** ** C50 *)
Theorem C50_mel : (forall f, -700 < f -> mel2hz (hz2mel f) = f) /\ (forall m, hz2mel (mel2hz m) = m) /\
  (forall f g, -700 < f -> f < g -> hz2mel f < hz2mel g) /\ (forall a b, a < b -> mel2hz a < mel2hz b).
Proof.
  split; [exact mel_inverse|]. split; [|split; [exact hz2mel_incr|exact mel2hz_incr]].
  intros m. unfold hz2mel, mel2hz. replace (1 + 700 * (exp (m / 1127) - 1) / 700) with (exp (m / 1127)) by field.
  rewrite ln_exp. field.
Qed.

Theorem C50_bark : (forall f, -1960 < f -> bark2hz (hz2bark f) = f) /\
  (forall b, b < 2981/100 - 53/100 -> hz2bark (bark2hz b) = b) /\
  (forall f g, -1960 < f -> f < g -> hz2bark f < hz2bark g) /\
  (forall a b, b < 2981/100 - 53/100 -> a < b -> bark2hz a < bark2hz b).
Proof.
  assert (A : forall f, -1960 < f -> hz2bark f = 2981/100 - 53/100 - 2981/100 * 1960 / (1960 + f)).
  { intros f Hf. unfold hz2bark. field. lra. }
  assert (B : forall b, b < 2981/100 - 53/100 -> bark2hz b = -1960 + 1960 * (2981/100) / (2981/100 - 53/100 - b)).
  { intros b Hb. unfold bark2hz. field. lra. }
  split; [|split; [|split]].
  - intros f Hf. unfold bark2hz, hz2bark. field. split; [lra|].
    replace (2981 * (1960 + f) - 2981 * f) with (2981 * 1960) by ring. lra.
  - intros b Hb. rewrite B by auto. unfold hz2bark. field. split; [lra|].
    replace (1960 * 100 * (2981 - 53 - 100 * b) + (-1960 * 100 * (2981 - 53 - 100 * b) + 1960 * 2981 * 100)) with (1960 * 2981 * 100) by ring. lra.
  - intros f g Hf Hg. rewrite !A by lra. assert (/ (1960 + g) < / (1960 + f)) by (apply Rinv_lt_contravar; nra).
    unfold Rdiv. nra.
  - intros a b Hb H. rewrite !B by lra.
    assert (/ (2981/100 - 53/100 - a) < / (2981/100 - 53/100 - b)) by (apply Rinv_lt_contravar; nra). unfold Rdiv. nra.
Qed.
Example C50_ex : hz2mel 700 = 1127 * ln 2 /\ mel2hz (1127 * ln 2) = 700.
Proof.
  unfold hz2mel, mel2hz. split; [f_equal; f_equal; lra|]. replace (1127 * ln 2 / 1127) with (ln 2) by field.
  rewrite exp_ln; lra.
Qed.

(** ** C51 *)
Theorem C51_frames : forall signal flen frate, (0 < frate)%nat ->
  let len := List.length signal in
  ((flen <= len)%nat -> exists fr, frames signal flen frate = Ok fr /\
     List.length fr = ((len - flen) / frate + 1)%nat /\
     (* all reads are inside the signal *)
     (forall i j, (i < List.length fr)%nat -> (j < flen)%nat ->
        (i * frate + j < len)%nat /\ nth j (nth i fr []) None = Some (nth (i * frate + j) signal 0)) /\
     (* one more frame would not fit *)
     (len < List.length fr * frate + flen)%nat) /\
  ((len < flen <= len + frate)%nat -> frames signal flen frate = Ok []) /\
  ((len + frate < flen)%nat -> frames signal flen frate = Err ValueError).
Proof.
  intros signal flen frate Hf len. unfold frames. fold len.
  replace (frate =? 0)%nat with false by (symmetry; apply Nat.eqb_neq; lia).
  assert (Hz : (0 < Z.of_nat frate)%Z) by lia. split; [|split].
  - intros H.
    assert (E : n_frames len flen frate = Z.of_nat ((len - flen) / frate + 1)).
    { unfold n_frames. rewrite Nat2Z.inj_add, Nat2Z.inj_div, Nat2Z.inj_sub by auto. lia. }
    rewrite E. replace (Z.of_nat ((len - flen) / frate + 1) <? 0)%Z with false by (symmetry; apply Z.ltb_ge; lia).
    rewrite Nat2Z.id. eexists. split; [reflexivity|]. rewrite map_length, seq_length.
    assert (D := Nat.div_mod (len - flen) frate ltac:(lia)).
    assert (M := Nat.mod_upper_bound (len - flen) frate ltac:(lia)). set (q := ((len - flen) / frate)%nat) in *.
    split; [reflexivity|]. split; [|nia].
    intros i j Hi Hj. assert (B : (i * frate + j < len)%nat) by nia. split; [exact B|].
    rewrite (map_nth_lt _ _ _ 0%nat) by (rewrite seq_length; lia). rewrite seq_nth by lia.
    rewrite (map_nth_lt _ _ _ 0%nat) by (rewrite seq_length; lia). rewrite seq_nth by lia.
    cbn [Nat.add]. now apply nth_error_nth'.
  - intros H. assert (E : n_frames len flen frate = 0%Z).
    { unfold n_frames. rewrite <- (Z.div_unique (Z.of_nat len - Z.of_nat flen) (Z.of_nat frate) (-1)
        (Z.of_nat len - Z.of_nat flen + Z.of_nat frate)); lia. }
    rewrite E. reflexivity.
  - intros H. replace (n_frames len flen frate <? 0)%Z with true; [reflexivity|]. symmetry. apply Z.ltb_lt.
    unfold n_frames. assert ((Z.of_nat len - Z.of_nat flen) / Z.of_nat frate < -1)%Z; [|lia].
    apply Z.div_lt_upper_bound; lia.
Qed.

Theorem C51_fft_len : forall flen, (0 < flen)%nat ->
  (flen < fft_len flen <= 2 * flen)%nat /\ exists k, fft_len flen = (2 ^ k)%nat.
Proof.
  intros flen H. rewrite fft_len_log2 by auto. destruct (Nat.log2_spec flen H) as (L1 & L2).
  split; [|eauto]. rewrite Nat.add_1_r. split; [exact L2|]. rewrite Nat.pow_succ_r'. lia.
Qed.

Theorem C51_errors : forall signal flen p,
  short_term_mspec signal flen 0 p = Err ZeroDivisionError /\
  (forall frate, (0 < frate)%nat -> short_term_mspec signal 0 frate p = Err IndexError).
Proof.
  intros signal flen p. split; [reflexivity|]. intros frate H. unfold short_term_mspec.
  destruct (C51_frames (remove_dc signal) 0 frate H) as (A & _). destruct A as (fr & -> & _); [lia|]. reflexivity.
Qed.

(** 5 samples, frames of 3 samples every 2 samples *)
Example C51_ex : frames [1; 2; 3; 4; 5] 3 2 = Ok [[Some 1; Some 2; Some 3]; [Some 3; Some 4; Some 5]] /\
  fft_len 400 = 512%nat.
Proof. split; [reflexivity|]. rewrite fft_len_log2 by lia. reflexivity. Qed.

(** ** C52 *)
Lemma deltas_matrix dim winlens : forall fea, matrix dim fea ->
  List.length (deltas dim winlens fea) = S (List.length winlens) /\
  Forall (fun m => matrix dim m /\ List.length m = List.length fea) (deltas dim winlens fea).
Proof.
  induction winlens as [|w ws IH]; intros fea H; cbn [deltas].
  - split; [reflexivity|]. constructor; auto.
  - destruct (IH (delta w dim fea) (delta_matrix w dim fea)) as (L & F). split; [simpl; now rewrite L|].
    constructor; auto. rewrite delta_length in F. exact F.
Qed.

Lemma concat_block (l : list (list R)) dim b c : Forall (fun r => List.length r = dim) l -> (b < List.length l)%nat -> (c < dim)%nat ->
  nth (b * dim + c) (concat l) 0 = nth c (nth b l []) 0.
Proof.
  intros H. revert b. induction H as [|r l Hr Hl IH]; intros [|b] Hb Hc; simpl in Hb; try lia; cbn [concat nth].
  - rewrite app_nth1 by lia. reflexivity.
  - rewrite app_nth2 by (simpl; lia). rewrite Hr. replace (S b * dim + c - dim)%nat with (b * dim + c)%nat by (simpl; lia).
    apply IH; lia.
Qed.

(** Frames kept; the b-th block of columns is the b-th derivative, the first
    one the features themselves. *)
Theorem C52_shape : forall dim winlens fea, matrix dim fea -> fea <> [] ->
  exists out blocks, add_deltas dim winlens fea = Ok out /\ List.length out = List.length fea /\
    matrix ((1 + List.length winlens) * dim) out /\ List.length blocks = (1 + List.length winlens)%nat /\
    nth 0 blocks [] = fea /\
    (forall b, (b < List.length winlens)%nat -> nth (S b) blocks [] = delta (nth b winlens 0%nat) dim (nth b blocks [])) /\
    forall b t c, (b <= List.length winlens)%nat -> (t < List.length fea)%nat -> (c < dim)%nat ->
      nth (b * dim + c) (nth t out []) 0 = nth c (nth t (nth b blocks []) []) 0.
Proof.
  intros dim winlens fea Hm Hne. exists (hstack (deltas dim winlens fea) (List.length fea)), (deltas dim winlens fea).
  destruct (deltas_matrix dim winlens fea Hm) as (L & F).
  split; [unfold add_deltas; destruct winlens, fea; auto; congruence|].
  assert (Rows : forall t, (t < List.length fea)%nat -> Forall (fun r => List.length r = dim) (map (fun m => nth t m []) (deltas dim winlens fea))).
  { intros t Ht. apply Forall_forall. intros r Hr. apply in_map_iff in Hr. destruct Hr as (m & <- & Hin).
    rewrite Forall_forall in F. destruct (F m Hin) as (Mm & Lm). unfold matrix in Mm. rewrite Forall_forall in Mm.
    apply Mm, nth_In. lia. }
  split; [unfold hstack; now rewrite map_length, seq_length|]. split.
  { unfold hstack, matrix. apply Forall_forall. intros r Hr. apply in_map_iff in Hr. destruct Hr as (t & <- & Ht).
    apply in_seq in Ht. specialize (Rows t ltac:(lia)).
    assert (X : forall l : list (list R), Forall (fun r => List.length r = dim) l -> List.length (concat l) = (List.length l * dim)%nat).
    { induction 1; simpl; [auto|]. rewrite app_length. lia. }
    rewrite X by auto. rewrite map_length, L. lia. }
  split; [exact L|]. split; [destruct winlens; reflexivity|]. split.
  - clear -Hm. revert fea Hm. induction winlens as [|w ws IH]; intros fea Hm b Hb; simpl in Hb; [lia|].
    destruct b as [|b].
    + cbn [deltas nth]. destruct ws; reflexivity.
    + cbn [deltas]. change (nth (S (S b)) (fea :: deltas dim ws (delta w dim fea)) []) with (nth (S b) (deltas dim ws (delta w dim fea)) []).
      change (nth (S b) (fea :: deltas dim ws (delta w dim fea)) []) with (nth b (deltas dim ws (delta w dim fea)) []).
      cbn [nth]. apply IH; [apply delta_matrix|lia].
  - intros b t c Hb Ht Hc. unfold hstack. rewrite (map_nth_lt _ _ _ 0%nat) by (rewrite seq_length; lia). rewrite seq_nth by lia.
    cbn [Nat.add]. rewrite (concat_block _ dim) by (auto; rewrite map_length; lia).
    now rewrite (map_nth_lt (fun m => nth t m []) _ _ []) by lia.
Qed.

Theorem C52_constant : forall w dim r n t c, (t < n)%nat -> (c < dim)%nat ->
  nth c (nth t (delta w dim (repeat r n)) []) 0 = 0.
Proof.
  intros w dim r n t c Ht Hc. rewrite delta_nth by (rewrite ?repeat_length; auto).
  rewrite (sumf_ext _ (fun k => (nth c r 0 / (2 * sq w)) * offs w k)).
  - rewrite sumf_scal_l, sum_offs. ring.
  - intros k _. unfold clamped. rewrite repeat_length.
    rewrite (nth_indep _ [] r), nth_repeat by (rewrite repeat_length; lia). unfold Rdiv. ring.
Qed.

(** Twice the delta is the slope of the least squares line of the window. *)
Theorem C52_half_slope_partial : forall w dim fea t c, (0 < w)%nat -> (t < List.length fea)%nat -> (c < dim)%nat ->
  ls_slope fea c t w (2 * nth c (nth t (delta w dim fea) []) 0).
Proof.
  intros w dim fea t c Hw Ht Hc. rewrite delta_nth by auto. set (x := fun k => clamped fea c t k w).
  set (idx := seq 0 (2 * w + 1)). assert (D := sq_pos w Hw).
  assert (Hn : 0 < INR (List.length idx)) by (apply lt_0_INR; unfold idx; rewrite seq_length; lia).
  set (m := sumf x idx / INR (List.length idx)). set (sxo := sumf (fun k => offs w k * x k) idx).
  assert (E : 2 * sumf (fun k => offs w k / (2 * sq w) * clamped fea c t k w) idx = sxo / sq w).
  { unfold sxo. rewrite (sumf_ext _ (fun k => / (2 * sq w) * (offs w k * x k))).
    - rewrite sumf_scal_l. field. lra.
    - intros k _. unfold x, Rdiv. ring. }
  fold idx. rewrite E. exists m. intros a' b'.
  assert (X : forall a b, sse fea c t w a b =
     sumf (fun k => x k ^ 2) idx + INR (List.length idx) * a ^ 2 + b ^ 2 * sq w - 2 * a * sumf x idx - 2 * b * sxo).
  { intros a b. unfold sse. fold idx.
    rewrite (sumf_ext _ (fun k => x k ^ 2 + a ^ 2 + b ^ 2 * offs w k ^ 2 - 2 * a * x k - 2 * b * (offs w k * x k) + 2 * a * b * offs w k)).
    - rewrite sumf_plus, !sumf_minus, !sumf_plus, !sumf_scal_l, sumf_const. unfold idx at 8. rewrite sum_offs. unfold sq, sxo. fold idx. ring.
    - intros k _. unfold x, offs. ring. }
  rewrite !X. assert (Sx : sumf x idx = m * INR (List.length idx)) by (unfold m; field; lra).
  rewrite Sx. set (B := sxo / sq w). assert (So : sxo = B * sq w) by (unfold B; field; lra). rewrite So.
  assert (0 <= INR (List.length idx) * (a' - m) ^ 2) by (apply Rmult_le_pos; [lra|apply pow2_ge_0]).
  assert (0 <= sq w * (b' - B) ^ 2) by (apply Rmult_le_pos; [lra|apply pow2_ge_0]). nra.
Qed.

(** On a ramp the delta is half of the slope. *)
Theorem C52_ramp_refuted : forall w dim (a b : nat -> R) n t c, (0 < w)%nat -> (w <= t)%nat -> (t + w < n)%nat -> (c < dim)%nat ->
  let fea := map (fun i => map (fun c => a c + b c * INR i) (seq 0 dim)) (seq 0 n) in
  nth c (nth t (delta w dim fea) []) 0 = b c / 2 /\ (b c <> 0 -> nth c (nth t (delta w dim fea) []) 0 <> b c).
Proof.
  intros w dim a b n t c Hw H1 H2 Hc fea. assert (L : List.length fea = n) by (unfold fea; now rewrite map_length, seq_length).
  assert (E : nth c (nth t (delta w dim fea) []) 0 = b c / 2); [|split; [exact E|rewrite E; lra]].
  rewrite delta_nth by lia. assert (D := sq_pos w Hw).
  rewrite (sumf_ext _ (fun k => (a c + b c * INR t) / (2 * sq w) * offs w k + b c / (2 * sq w) * offs w k ^ 2)).
  - rewrite sumf_plus, !sumf_scal_l, sum_offs. fold (sq w). field. lra.
  - intros k Hk. apply in_seq in Hk. unfold clamped. rewrite L. rewrite Nat.min_l by lia.
    unfold fea. rewrite (map_nth_lt _ _ _ 0%nat) by (rewrite seq_length; lia). rewrite seq_nth by lia.
    rewrite (map_nth_lt _ _ _ 0%nat) by (rewrite seq_length; lia). rewrite seq_nth by lia. cbn [Nat.add].
    rewrite minus_INR, plus_INR by lia. unfold offs. field. lra.
Qed.

Theorem C52_linear : forall w dim x y a t c, List.length x = List.length y -> matrix dim x -> matrix dim y ->
  (t < List.length x)%nat -> (c < dim)%nat ->
  nth c (nth t (delta w dim (madd (mscale a x) y)) []) 0 =
  a * nth c (nth t (delta w dim x) []) 0 + nth c (nth t (delta w dim y) []) 0.
Proof.
  intros w dim x y a t c HL Hx Hy Ht Hc.
  assert (L : List.length (madd (mscale a x) y) = List.length x) by (unfold madd, mscale; rewrite map2_length, map_length; lia).
  rewrite !delta_nth by lia. rewrite <- sumf_scal_l, <- sumf_plus. apply sumf_ext. intros k _. unfold clamped. rewrite L, <- HL.
  set (i := Nat.min (t + k - w) (List.length x - 1)). assert (Hi : (i < List.length x)%nat) by (unfold i; lia).
  assert (Lx : List.length (nth i x []) = dim) by (unfold matrix in Hx; rewrite Forall_forall in Hx; apply Hx, nth_In; lia).
  assert (Ly : List.length (nth i y []) = dim) by (unfold matrix in Hy; rewrite Forall_forall in Hy; apply Hy, nth_In; lia).
  unfold madd, mscale. rewrite (map2_nth vadd _ _ i [] [] []) by (rewrite ?map_length; lia).
  rewrite (map_nth_lt (map (Rmult a)) _ _ []) by lia. unfold vadd.
  rewrite (map2_nth Rplus _ _ c 0 0 0) by (rewrite ?map_length; lia). rewrite nth_scale. ring.
Qed.

Theorem C52_empty : forall dim w ws, add_deltas dim (w :: ws) [] = Err IndexError.
Proof. reflexivity. Qed.

(** 0, 1, 2, 3, 4 has delta 1/2 in the middle *)
Example C52_ex : nth 0 (nth 2 (delta 2 1 [[0]; [1]; [2]; [3]; [4]]) []) 0 = 1 / 2.
Proof.
  rewrite delta_nth by (simpl; lia). unfold sq, sumf, offs, clamped. simpl. field.
Qed.

(** ** C53 *)
Theorem C53_pooled : forall dim utts, concat utts <> [] ->
  exists st, accumulate dim utts = Ok st /\ cs_count st = List.length (concat utts) /\
    List.length (cs_mean st) = dim /\ List.length (cs_var st) = dim /\
    forall c, (c < dim)%nat -> nth c (cs_mean st) 0 = col_mean c (concat utts) /\
      nth c (cs_var st) 0 = col_var c (concat utts) /\ 0 <= nth c (cs_var st) 0.
Proof.
  intros dim utts Hne. assert (Hu : utts <> []) by (intros ->; now apply Hne).
  assert (Z : List.length (repeat 0 dim) = dim) by apply repeat_length.
  assert (F := acc_fold dim utts (repeat 0 dim) (repeat 0 dim) 0%nat Z Z).
  unfold accumulate. destruct utts as [|u utts]; [congruence|]. set (us := u :: utts) in *.
  change (fun '(s, s2, n) utt => _) with (acc_step dim).
  destruct (fold_left (acc_step dim) us (repeat 0 dim, repeat 0 dim, 0%nat)) as [[s s2] n].
  destruct F as (L1 & L2 & -> & F). eexists. split; [reflexivity|]. cbn [cs_mean cs_var cs_count Nat.add].
  assert (Hn : 0 < INR (List.length (concat us))) by (apply lt_0_INR; destruct (concat us); [congruence|simpl; lia]).
  split; [reflexivity|]. split; [now rewrite map_length|]. split; [rewrite map2_length, map_length; lia|].
  intros c Hc. destruct (F c Hc) as (E1 & E2). rewrite nth_repeat, Rplus_0_l in E1, E2.
  assert (M : nth c (map (fun x => x / INR (List.length (concat us))) s) 0 = col_mean c (concat us)).
  { rewrite (map_nth_lt _ _ _ 0) by lia. rewrite E1. reflexivity. }
  split; [exact M|].
  assert (V : nth c (map2 (fun q mu => q / INR (List.length (concat us)) - mu ^ 2) s2
       (map (fun x => x / INR (List.length (concat us))) s)) 0 = col_var c (concat us)).
  { rewrite (map2_nth _ _ _ c 0 0 0) by (rewrite ?map_length; lia). rewrite M, E2. unfold col_var.
    rewrite (sumf_ext (fun r => (nth c r 0 - col_mean c (concat us)) ^ 2)
       (fun r => nth c r 0 ^ 2 - 2 * col_mean c (concat us) * nth c r 0 + col_mean c (concat us) ^ 2)) by (intros; ring).
    rewrite sumf_plus, sumf_minus, sumf_scal_l, sumf_const.
    assert (S1 : sumf (fun r => nth c r 0) (concat us) = col_mean c (concat us) * INR (List.length (concat us)))
      by (unfold col_mean; field; lra). rewrite S1. field. lra. }
  split; [exact V|]. rewrite V. unfold col_var. apply Rmult_le_pos; [|left; now apply Rinv_0_lt_compat].
  apply sumf_nonneg. intros. apply pow2_ge_0.
Qed.

(** The order of the frames and their grouping in utterances are irrelevant. *)
Theorem C53_order_and_grouping : forall dim utts utts', concat utts <> [] -> Permutation (concat utts) (concat utts') ->
  accumulate dim utts = accumulate dim utts'.
Proof.
  intros dim utts utts' Hne HP. assert (L := Permutation_length HP).
  assert (Hne' : concat utts' <> []) by (intros E; rewrite E in HP; apply Permutation_sym, Permutation_nil in HP; auto).
  destruct (C53_pooled dim utts Hne) as (st & -> & C1 & M1 & V1 & P1).
  destruct (C53_pooled dim utts' Hne') as (st' & -> & C2 & M2 & V2 & P2). f_equal.
  assert (CM : forall c, col_mean c (concat utts) = col_mean c (concat utts')).
  { intros c. unfold col_mean. rewrite L. f_equal. now apply sumf_perm. }
  destruct st as [m v n], st' as [m' v' n']. cbn [cs_mean cs_var cs_count] in *. f_equal; [| |congruence].
  - apply (nth_ext _ _ 0 0); [congruence|]. intros c Hc. rewrite M1 in Hc.
    destruct (P1 c Hc) as (-> & _). destruct (P2 c Hc) as (-> & _). apply CM.
  - apply (nth_ext _ _ 0 0); [congruence|]. intros c Hc. rewrite V1 in Hc.
    destruct (P1 c Hc) as (_ & -> & _). destruct (P2 c Hc) as (_ & -> & _). unfold col_var. rewrite L, CM. f_equal.
    now apply sumf_perm.
Qed.

Theorem C53_empty : forall dim, accumulate dim [] = Err IndexError.
Proof. reflexivity. Qed.

Example C53_ex : accumulate 1 [[[1]; [3]]; []; [[5]]] = Ok {| cs_mean := [3]; cs_var := [8 / 3]; cs_count := 3 |}.
Proof.
  unfold accumulate, col_sums, vadd. simpl. f_equal. f_equal; f_equal; lra.
Qed.

(** ** C99: filter bank *)
Lemma tri_sum (c : nat -> R) (n : nat) x : (forall i, c i < c (S i)) ->
  let s := sumf (fun i => tri (c i) (c (i + 1)%nat) (c (i + 2)%nat) x) (seq 0 (S n)) in
  (c 1%nat <= x <= c (S n) -> s = 1) /\
  (c (S n) <= x <= c (S (S n)) -> s = (c (S (S n)) - x) / (c (S (S n)) - c (S n))) /\
  (c (S (S n)) <= x -> s = 0).
Proof.
  intros Hc. assert (A : forall i, c (i + 1)%nat = c (S i) /\ c (i + 2)%nat = c (S (S i))).
  { intros i. split; f_equal; lia. }
  induction n as [|n IH]; cbn zeta.
  - cbn [seq]. rewrite sumf_cons, sumf_nil. cbn [Nat.add]. assert (H0 := Hc 0%nat). assert (H1 := Hc 1%nat). split; [|split]; intros H.
    + rewrite tri_left by lra. assert (x = c 1%nat) by lra. subst. field. lra.
    + rewrite tri_right by lra. field. lra.
    + rewrite tri_out by lra. ring.
  - rewrite seq_S, sumf_app, sumf_cons, sumf_nil. rewrite (Nat.add_0_l (S n)). rewrite (proj1 (A (S n))), (proj2 (A (S n))).
    cbn zeta in IH. destruct IH as (I1 & I2 & I3). assert (H0 := Hc (S n)). assert (H1 := Hc (S (S n))). split; [|split]; intros H.
    + destruct (Rle_dec x (c (S n))).
      * rewrite I1 by lra. rewrite tri_out by lra. ring.
      * rewrite I2 by lra. rewrite tri_left by lra. field. lra.
    + rewrite I3 by lra. rewrite tri_right by lra. ring.
    + rewrite I3 by lra. rewrite tri_out by lra. ring.
Qed.

Lemma mapM_ok {A B} (f : A -> result B) (g : A -> B) l : (forall a, In a l -> f a = Ok (g a)) -> mapM f l = Ok (map g l).
Proof.
  induction l as [|a l IH]; intros H; [reflexivity|]. cbn [mapM map]. rewrite H by now left. cbn [bindr].
  rewrite IH by (intros; apply H; now right). reflexivity.
Qed.

(** If the first two edges are at least one bin apart, the bank consists of
    triangles of height one between strictly increasing bins, all values lie in
    [0, 1] and the filters add up to one between the first and last tops. *)
Theorem C99_filters_partial : forall n N srate lo hi, (0 < n)%nat -> (0 < N)%nat -> Nat.Even N -> 0 < srate ->
  0 <= lo -> lo < hi -> hi <= srate / 2 ->
  1 <= INR N * (mel2hz (hz2mel lo + (hz2mel hi - hz2mel lo) / INR (n + 1)) - lo) / srate ->
  exists bank (c : nat -> nat), create_fbank n N srate lo hi hz2mel mel2hz true = Ok bank /\
    List.length bank = n /\ (forall i, (i <= n)%nat -> (c i < c (S i))%nat) /\
    (forall i, (i <= n + 1)%nat ->
       INR (c i) <= INR N * mel2hz (hz2mel lo + INR i * ((hz2mel hi - hz2mel lo) / INR (n + 1))) / srate < INR (c i) + 1) /\
    (forall i, (i < n)%nat ->
       nth i bank [] = map (fun f => FVal (tri (INR (c i)) (INR (c (i + 1)%nat)) (INR (c (i + 2)%nat)) (INR f))) (seq 0 (N / 2))) /\
    (forall i f, (i < n)%nat -> 0 <= tri (INR (c i)) (INR (c (i + 1)%nat)) (INR (c (i + 2)%nat)) (INR f) <= 1) /\
    (forall f, (c 1%nat <= f <= c n)%nat ->
       sumf (fun i => tri (INR (c i)) (INR (c (i + 1)%nat)) (INR (c (i + 2)%nat)) (INR f)) (seq 0 n) = 1).
Proof.
  intros n N srate lo hi Hn HN HE Hs Hlo Hlt Hhi Hstep.
  set (rc := raw_center n N srate lo hi).
  assert (RC : forall i, rc i = INR N * mel2hz (hz2mel lo + INR i * ((hz2mel hi - hz2mel lo) / INR (n + 1))) / srate).
  { intros i. unfold rc, raw_center, linspace. replace (n + 2 =? 1)%nat with false by (symmetry; apply Nat.eqb_neq; lia).
    now replace (n + 2 - 1)%nat with (n + 1)%nat by lia. }
  assert (Ends := raw_center_ends n N srate lo hi ltac:(lra) ltac:(lra)). fold rc in Ends. destruct Ends as (E0 & En).
  assert (Gap0 : 1 <= rc 1%nat - rc 0%nat).
  { rewrite E0, RC. change (INR 1) with 1. rewrite Rmult_1_l. unfold Rdiv in *. lra. }
  assert (Mel : 0 < (hz2mel hi - hz2mel lo) / INR (n + 1)).
  { apply Rdiv_lt_0_compat; [|apply lt_0_INR; lia]. assert (X := hz2mel_incr lo hi ltac:(lra) Hlt). lra. }
  assert (Gap : forall i, rc i + 1 <= rc (S i)).
  { intros i. assert (E := raw_center_step n N srate lo hi i Hs). fold rc in E.
    assert (1 <= exp (INR i * ((hz2mel hi - hz2mel lo) / INR (n + 1)) / 1127)).
    { rewrite <- exp_0. assert (0 <= INR i) by apply pos_INR.
      assert (0 <= INR i * ((hz2mel hi - hz2mel lo) / INR (n + 1)) / 1127) by (apply Rmult_le_pos; [apply Rmult_le_pos; lra|lra]).
      destruct H0 as [H0|H0]; [left; now apply exp_increasing|right; now rewrite <- H0]. }
    nra. }
  assert (Pos0 : 0 <= rc 0%nat).
  { rewrite E0. apply Rmult_le_pos; [apply Rmult_le_pos; [apply pos_INR|auto]|left; now apply Rinv_0_lt_compat]. }
  assert (Pos : forall i, 0 <= rc i) by (induction i; [auto|]; specialize (Gap i); lra).
  set (c := fun i => Z.to_nat (Int_part (rc i))).
  assert (IP : forall i, INR (c i) = IZR (Int_part (rc i))).
  { intros i. unfold c. rewrite INR_IZR_INZ, Z2Nat.id; [reflexivity|]. destruct (base_Int_part (rc i)) as (_ & X).
    assert (-1 < Int_part (rc i))%Z; [|lia]. apply lt_IZR. specialize (Pos i). lra. }
  assert (CG : forall i, (c i < c (S i))%nat).
  { intros i. apply INR_lt. rewrite !IP. apply IZR_lt, Int_part_gap, Gap. }
  assert (CR : forall i, INR (c i) < INR (c (S i))) by (intros; apply lt_INR, CG).
  assert (CN : forall i, (i < n + 2)%nat -> nth i (centers n N srate lo hi hz2mel mel2hz true) 0 = INR (c i)).
  { intros i Hi. rewrite centers_nth by auto. now rewrite IP. }
  assert (Top : (c (n + 1)%nat <= N / 2)%nat).
  { destruct HE as (h & ->). rewrite Nat.mul_comm, Nat.div_mul by lia. apply INR_le. rewrite IP.
    destruct (base_Int_part (rc (n + 1)%nat)) as (X & _). eapply Rle_trans; [exact X|]. rewrite En, mult_INR. change (INR 2) with 2.
    apply (Rmult_le_reg_r srate); auto. unfold Rdiv. rewrite Rmult_assoc, Rinv_l, Rmult_1_r by lra.
    assert (0 <= INR h) by apply pos_INR. nra. }
  assert (Mono : forall i j, (i <= j)%nat -> (c i <= c j)%nat).
  { induction 1; [lia|]. specialize (CG m). lia. }
  set (row := fun i => map (fun f => FVal (tri (INR (c i)) (INR (c (i + 1)%nat)) (INR (c (i + 2)%nat)) (INR f))) (seq 0 (N / 2))).
  assert (S1 : forall i, c (i + 1)%nat = c (S i) /\ c (i + 2)%nat = c (S (S i))) by (intros; split; f_equal; lia).
  exists (map (fun i => row (i - 1)%nat) (seq 1 n)), c. split; [|split; [|split; [|split; [|split; [|split] ] ] ] ].
  - unfold create_fbank. apply mapM_ok. intros i Hi. apply in_seq in Hi. rewrite !CN by lia.
    unfold row. replace (i - 1 + 1)%nat with i by lia. replace (i - 1 + 2)%nat with (i + 1)%nat by lia.
    assert (C1 := CR (i - 1)%nat). assert (C2 := CR i). replace (S (i - 1)) with i in C1 by lia.
    replace (i + 1)%nat with (S i) by lia.
    assert (CB : (c i < N / 2)%nat) by (assert (X := CG i); assert (Y := Mono (S i) (n + 1)%nat ltac:(lia)); lia).
    apply triangle_tri; auto; exists (c i); (split; [exact CB|lra]).
  - now rewrite map_length, seq_length.
  - intros i _. apply CG.
  - intros i Hi. rewrite <- RC, IP. destruct (base_Int_part (rc i)). lra.
  - intros i Hi. rewrite (map_nth_lt _ _ _ 0%nat) by (rewrite seq_length; lia). rewrite seq_nth by lia.
    now replace (1 + i - 1)%nat with i by lia.
  - intros i f Hi. destruct (S1 i) as (-> & ->). apply tri_bounds; apply CR.
  - intros f Hf. destruct n as [|n]; [lia|]. apply (proj1 (tri_sum (fun i => INR (c i)) n (INR f) CR)).
    split; apply le_INR; lia.
Qed.

(** Any two coinciding tops give NaN at this bin. *)
Theorem C99_coinciding_refuted :
  (forall f start nbins, (f < nbins)%nat -> start <= INR f ->
     exists row, triangle (INR f) start (INR f) nbins = Ok row /\ nth f row (FVal 0) = FNaN) /\
  (exists row, create_fbank 1 512 16000 0 10 hz2mel mel2hz true = Ok [row] /\ nth 0 row (FVal 0) = FNaN).
Proof.
  assert (G : forall f start nbins, (f < nbins)%nat -> start <= INR f ->
     exists row, triangle (INR f) start (INR f) nbins = Ok row /\ nth f row (FVal 0) = FNaN).
  { intros f start nbins Hf Hs. rewrite triangle_eq by (exists f; split; [auto|lra]). eexists. split; [reflexivity|].
    rewrite (map_nth_lt _ _ _ 0%nat) by (rewrite seq_length; lia). rewrite seq_nth by lia. cbn [Nat.add].
    rewrite (proj2 (Rleb_spec (INR f) (INR f))) by lra. cbn [andb]. unfold side.
    destruct (Req_EM_T (INR f - INR f) 0); [reflexivity|lra]. }
  split; [exact G|].
  assert (Ends := raw_center_ends 1 512 16000 0 10 ltac:(lra) ltac:(lra)). destruct Ends as (E0 & E2).
  assert (I1 := raw_center_incr 1 512 16000 0 10 0 ltac:(lra) ltac:(lra) ltac:(lra) ltac:(lia)).
  assert (I2 := raw_center_incr 1 512 16000 0 10 1 ltac:(lra) ltac:(lra) ltac:(lra) ltac:(lia)).
  cbn [Nat.add] in E2. replace (INR 512) with 512 in E0, E2 by (rewrite INR_IZR_INZ; reflexivity).
  assert (Z : forall i, (i < 3)%nat -> nth i (centers 1 512 16000 0 10 hz2mel mel2hz true) 0 = INR 0).
  { intros i Hi. rewrite centers_nth by lia. change (INR 0) with (IZR 0). f_equal. symmetry. apply Int_part_uniq.
    destruct i as [|[|[|i] ] ]; try lia; change (IZR 0) with 0; lra. }
  unfold create_fbank. cbn [seq mapM]. rewrite !Z by lia.
  destruct (G 0%nat 0 (512 / 2)%nat) as (row & E & N0); [apply Nat.ltb_lt; reflexivity|simpl; lra|].
  change (INR 0) with 0 in *. rewrite E. cbn [bindr]. eauto.
Qed.

(** Without alignment, a narrow filter raises IndexError. *)
Theorem C99_narrow_refuted : create_fbank 1 512 16000 4 6 hz2mel mel2hz false = Err IndexError.
Proof.
  assert (Ends := raw_center_ends 1 512 16000 4 6 ltac:(lra) ltac:(lra)). destruct Ends as (E0 & E2).
  assert (I1 := raw_center_incr 1 512 16000 4 6 0 ltac:(lra) ltac:(lra) ltac:(lra) ltac:(lia)).
  assert (I2 := raw_center_incr 1 512 16000 4 6 1 ltac:(lra) ltac:(lra) ltac:(lra) ltac:(lia)).
  cbn [Nat.add] in E2. replace (INR 512) with 512 in E0, E2 by (rewrite INR_IZR_INZ; reflexivity).
  unfold create_fbank. cbn [seq mapM]. cbn [Nat.sub Nat.add]. rewrite !centers_nth by lia. unfold triangle.
  rewrite write_side_none; [reflexivity|]. intros f _ (H1 & H2).
  assert (0 < f)%nat by (apply INR_lt; change (INR 0) with 0; lra).
  assert (f < 1)%nat by (apply INR_lt; change (INR 1) with 1; lra). lia.
Qed.

(** fbank always uses the filters of 16 kHz, which are not those of 8 kHz. *)
Theorem C99_sampling_rate_refuted :
  (forall signal srate flen frate lo hi n p, fbank signal srate flen frate lo hi n p = fbank signal 16000 flen frate lo hi n p) /\
  (exists r16 r8, create_fbank 1 512 16000 0 2100 hz2mel mel2hz true = Ok [r16] /\
     create_fbank 1 512 8000 0 2100 hz2mel mel2hz true = Ok [r8] /\
     nth 22 r16 (FVal 0) = FVal 1 /\ nth 22 r8 (FVal 0) = FVal (1 / 2)).
Proof.
  split; [reflexivity|].
  assert (M0 : hz2mel 0 = 0) by (unfold hz2mel; replace (1 + 0 / 700) with 1 by lra; rewrite ln_1; ring).
  assert (M2 : hz2mel 2100 = 1127 * (2 * ln 2)).
  { unfold hz2mel. replace (1 + 2100 / 700) with (2 * 2) by lra. rewrite ln_mult by lra. ring. }
  assert (L : forall srate i, (i < 3)%nat -> raw_center 1 512 srate 0 2100 i = 512 * nth i [0; 700; 2100] 0 / srate).
  { intros srate i Hi. unfold raw_center, linspace. cbn [Nat.add Nat.eqb Nat.sub].
    replace (INR 512) with 512 by (rewrite INR_IZR_INZ; reflexivity). rewrite M0, M2. f_equal. f_equal. unfold mel2hz.
    change (INR 2) with 2. destruct i as [|[|[|i] ] ]; try lia; cbn [nth].
    - change (INR 0) with 0. replace ((0 + 0 * ((1127 * (2 * ln 2) - 0) / 2)) / 1127) with 0 by field. rewrite exp_0. ring.
    - change (INR 1) with 1. replace ((0 + 1 * ((1127 * (2 * ln 2) - 0) / 2)) / 1127) with (ln 2) by field. rewrite exp_ln by lra. ring.
    - change (INR 2) with 2. replace ((0 + 2 * ((1127 * (2 * ln 2) - 0) / 2)) / 1127) with (ln 2 + ln 2) by field.
      rewrite exp_plus, exp_ln by lra. ring. }
  assert (G : forall srate (a b : nat), (0 < a)%nat -> (a < b)%nat -> (a < 256)%nat ->
     INR a <= 512 * 700 / srate < INR a + 1 -> INR b <= 512 * 2100 / srate < INR b + 1 ->
     create_fbank 1 512 srate 0 2100 hz2mel mel2hz true = Ok [map (fun f => FVal (tri 0 (INR a) (INR b) (INR f))) (seq 0 256)]).
  { intros srate a b H0 Hab Ha A B. unfold create_fbank. cbn [seq mapM Nat.sub Nat.add]. rewrite !centers_nth by lia. rewrite !L by lia. cbn [nth].
    rewrite <- (Int_part_uniq (512 * 700 / srate) (Z.of_nat a)) by (rewrite <- INR_IZR_INZ; lra).
    rewrite <- (Int_part_uniq (512 * 2100 / srate) (Z.of_nat b)) by (rewrite <- INR_IZR_INZ; lra).
    rewrite <- (Int_part_uniq (512 * 0 / srate) 0) by (unfold Rdiv; rewrite Rmult_0_r, Rmult_0_l; lra).
    rewrite <- !INR_IZR_INZ. change (512 / 2)%nat with 256%nat.
    assert (0 < INR a) by (apply lt_0_INR; lia). assert (INR a < INR b) by (apply lt_INR; lia).
    rewrite (triangle_tri (INR a) 0 (INR b) 256) by (auto; exists a; (split; [exact Ha|lra])). reflexivity. }
  assert (N22 : forall n, INR n = IZR (Z.of_nat n)) by apply INR_IZR_INZ.
  rewrite (G 16000 22%nat 67%nat) by (try lia; rewrite ?N22; simpl; lra).
  rewrite (G 8000 44%nat 134%nat) by (try lia; rewrite ?N22; simpl; lra).
  do 2 eexists. split; [reflexivity|]. split; [reflexivity|].
  assert (V : forall a b : nat, nth 22 (map (fun f => FVal (tri 0 (INR a) (INR b) (INR f))) (seq 0 256)) (FVal 0) =
     FVal (tri 0 (INR a) (INR b) (INR 22))).
  { intros a b. rewrite (map_nth_lt _ _ _ 0%nat) by (rewrite seq_length; lia). now rewrite seq_nth by lia. }
  rewrite !V. rewrite !N22. simpl. rewrite !tri_left by lra. split; f_equal; lra.
Qed.

Example C99_ex : triangle 2 0 4 6 = Ok [FVal 0; FVal (1/2); FVal 1; FVal (1/2); FVal 0; FVal 0].
Proof.
  rewrite triangle_tri by (try lra; exists 2%nat; simpl; (split; [lia|lra])). cbn [seq map].
  replace (INR 0) with 0 by reflexivity. replace (INR 1) with 1 by reflexivity. replace (INR 2) with 2 by reflexivity.
  replace (INR 3) with 3 by (simpl; ring). replace (INR 4) with 4 by (simpl; ring). replace (INR 5) with 5 by (simpl; ring).
  rewrite (tri_left 0 2 4 0), (tri_left 0 2 4 1), (tri_left 0 2 4 2), (tri_right 0 2 4 3), (tri_right 0 2 4 4), (tri_out 0 2 4 5) by lra.
  repeat (f_equal; try lra).
Qed.

(** ** C100: invariances of the spectrum *)
Theorem C100_offset : forall signal c flen frate p,
  short_term_mspec (map (fun x => x + c) signal) flen frate p = short_term_mspec signal flen frate p.
Proof. intros. unfold short_term_mspec. now rewrite remove_dc_shift. Qed.

Theorem C100_volume : forall signal a flen frate p,
  short_term_mspec (map (Rmult a) signal) flen frate p =
  bindr (short_term_mspec signal flen frate p) (fun r => Ok (map (map (Rmult (Rabs a))) (fst r), snd r)).
Proof.
  intros signal a flen frate p. unfold short_term_mspec. rewrite remove_dc_scale, frames_map.
  destruct (frames (remove_dc signal) flen frate) as [fr|e]; cbn [bindr]; [|reflexivity].
  destruct (flen =? 0)%nat; [reflexivity|]. cbn [bindr fst snd]. f_equal. f_equal. rewrite !map_map. apply map_ext. intros f.
  now rewrite frame_values_scale, preemphasis_scale, windowed_scale, magnitude_scale.
Qed.

Theorem C100_shape : forall signal flen frate p, (0 < frate)%nat -> (0 < flen <= List.length signal)%nat ->
  exists m, short_term_mspec signal flen frate p = Ok (m, fft_len flen) /\
    List.length m = ((List.length signal - flen) / frate + 1)%nat /\
    Forall (fun r => List.length r = (fft_len flen / 2)%nat /\ Forall (fun v => 0 <= v) r) m.
Proof.
  intros signal flen frate p Hf Hl. destruct (C51_frames (remove_dc signal) flen frate Hf) as (A & _).
  assert (L : List.length (remove_dc signal) = List.length signal) by (unfold remove_dc; apply map_length).
  rewrite L in A. destruct A as (fr & E & Lf & _); [lia|]. unfold short_term_mspec. rewrite E. cbn [bindr].
  replace (flen =? 0)%nat with false by (symmetry; apply Nat.eqb_neq; lia). eexists. split; [reflexivity|].
  rewrite map_length. split; [exact Lf|]. apply Forall_forall. intros r Hr. apply in_map_iff in Hr. destruct Hr as (f & <- & _).
  unfold magnitude. rewrite map_length, seq_length. split; [reflexivity|]. apply Forall_forall. intros v Hv.
  apply in_map_iff in Hv. destruct Hv as (k & <- & _). apply sqrt_pos.
Qed.

Lemma repeat_shift (c : R) n : repeat c n = map (fun x => x + c) (map (Rmult 0) (repeat 0 n)).
Proof. induction n as [|n IH]; [reflexivity|]. cbn [repeat map]. rewrite <- IH. f_equal. ring. Qed.

(** A constant signal has no spectrum. *)
Theorem C100_silence : forall n c flen frate p m N,
  short_term_mspec (repeat c n) flen frate p = Ok (m, N) -> Forall (Forall (fun v => v = 0)) m.
Proof.
  intros n c flen frate p m N H. rewrite repeat_shift, C100_offset, C100_volume in H.
  destruct (short_term_mspec (repeat 0 n) flen frate p) as [[m0 N0]|e]; cbn [bindr fst snd] in H; [|discriminate].
  inversion H; subst. apply Forall_forall. intros r Hr. apply in_map_iff in Hr. destruct Hr as (r0 & <- & _).
  apply Forall_forall. intros v Hv. apply in_map_iff in Hv. destruct Hv as (v0 & <- & _). rewrite Rabs_R0. ring.
Qed.

(** Utterance mean normalisation: zero mean in every dimension, and a constant
    offset of the features disappears. *)
Theorem C100_mean_norm : forall dim fea off, matrix dim fea -> fea <> [] -> List.length off = dim ->
  (forall c, (c < dim)%nat -> col_mean c (mean_norm dim fea) = 0) /\
  mean_norm dim (map (fun r => vadd r off) fea) = mean_norm dim fea.
Proof.
  intros dim fea off Hm Hne Ho.
  assert (Hn : 0 < INR (List.length fea)) by (apply lt_0_INR; destruct fea; [congruence|simpl; lia]).
  set (mu := fun fea => map (fun c => mean (map (fun r => nth c r 0) fea)) (seq 0 dim)).
  assert (MU : forall f c, (c < dim)%nat -> nth c (mu f) 0 = mean (map (fun r => nth c r 0) f)).
  { intros f c Hc. unfold mu. rewrite (map_nth_lt _ _ _ 0%nat) by (rewrite seq_length; lia). now rewrite seq_nth by lia. }
  assert (ML : forall f, List.length (mu f) = dim) by (intros; unfold mu; now rewrite map_length, seq_length).
  unfold matrix in Hm. rewrite Forall_forall in Hm. split.
  - intros c Hc. unfold col_mean, mean_norm. fold (mu fea). rewrite map_length, sumf_map.
    rewrite (sumf_ext _ (fun r => nth c r 0 - nth c (mu fea) 0)).
    + rewrite sumf_minus, sumf_const, MU by auto. unfold mean. rewrite map_length. unfold sumf. field. lra.
    + intros r Hr. unfold vsub. now rewrite (map2_nth Rminus _ _ c 0 0 0) by (rewrite ?ML, ?(Hm r Hr); auto).
  - unfold mean_norm. fold (mu fea). fold (mu (map (fun r => vadd r off) fea)). rewrite map_map. apply map_ext_in. intros r Hr.
    assert (Lr := Hm r Hr). apply (nth_ext _ _ 0 0); [unfold vsub, vadd; rewrite !map2_length, !ML; lia|].
    intros c Hc. unfold vsub, vadd in Hc. rewrite !map2_length, ML in Hc.
    assert (E : mean (map (fun r0 => nth c r0 0) (map (fun r0 => vadd r0 off) fea)) =
      mean (map (fun r0 => nth c r0 0) fea) + nth c off 0).
    { rewrite <- mean_shift by (destruct fea; [congruence|discriminate]). rewrite !map_map. f_equal. apply map_ext_in.
      intros r0 Hr0. unfold vadd. now rewrite (map2_nth Rplus _ _ c 0 0 0) by (rewrite ?(Hm r0 Hr0); lia). }
    unfold vsub at 1. rewrite (map2_nth Rminus _ _ c 0 0 0) by (unfold vadd; rewrite ?map2_length, ?ML; lia).
    unfold vsub. rewrite (map2_nth Rminus _ _ c 0 0 0) by (rewrite ?ML; lia). rewrite !MU by lia. rewrite E.
    unfold vadd. rewrite (map2_nth Rplus _ _ c 0 0 0) by lia. ring.
Qed.

Example C100_ex : remove_dc [1; 2; 6] = [-2; -1; 3] /\ preemphasis (1/2) [2; 4; 4] = [1; 3; 2].
Proof. split; unfold remove_dc, mean, preemphasis; simpl; repeat (f_equal; try lra). Qed.

(** ** C101: cosine transform *)
Theorem C101_orthonormal : forall N k l, (k + 1 < N)%nat -> (l + 1 < N)%nat ->
  sumf (fun n => (sqrt (2 / INR N) * dct_base N n k) * (sqrt (2 / INR N) * dct_base N n l)) (seq 0 N) = if (k =? l)%nat then 1 else 0.
Proof.
  intros N k l Hk Hl. assert (HN : 0 < INR N) by (apply lt_0_INR; lia).
  assert (Sq : sqrt (2 / INR N) * sqrt (2 / INR N) = 2 / INR N) by (apply sqrt_sqrt; left; apply Rdiv_lt_0_compat; lra).
  rewrite (sumf_ext _ (fun n => sqrt (2 / INR N) * sqrt (2 / INR N) * (dct_base N n k * dct_base N n l))) by (intros; ring).
  rewrite Sq, sumf_scal_l, dct_orthogonal by auto. destruct (k =? l)%nat; [field; lra|ring].
Qed.

(** The coefficients of a frame synthesised from the basis (plus a constant)
    come back, up to the liftering. *)
Theorem C101_coefficients : forall N M L e (a : nat -> R) x, (M + 1 <= N)%nat -> List.length x = N ->
  (forall n, (n < N)%nat -> nth n x 0 = e + sumf (fun m => a m * (sqrt (2 / INR N) * dct_base N n m)) (seq 0 M)) ->
  List.length (cepstrum N M L x) = M /\
  (forall m, (m < M)%nat -> nth m (cepstrum N M L x) 0 = a m * (1 + L / 2 * sin (PI * (1 + INR m) / L))) /\
  energy N x = e * sqrt (2 * INR N).
Proof.
  intros N M L e a x HM Hx Hn. unfold cepstrum. split; [now rewrite map_length, seq_length|].
  assert (P : (0 < M)%nat -> 0 < INR N) by (intros; apply lt_0_INR; lia). split.
  - intros m Hm. rewrite (map_nth_lt _ _ _ 0%nat) by (rewrite seq_length; lia). rewrite seq_nth by lia. cbn [Nat.add].
    f_equal. specialize (P ltac:(lia)).
    rewrite (sumf_ext _ (fun n => e * dct_base N n m +
       sumf (fun m' => a m' * sqrt (2 / INR N) * (dct_base N n m' * dct_base N n m)) (seq 0 M))).
    + rewrite sumf_plus, sumf_scal_l, dct_sum_zero by lia. rewrite sumf_swap.
      rewrite (sumf_ext _ (fun m' => a m' * sqrt (2 / INR N) * (if (m' =? m)%nat then INR N / 2 else 0))).
      * rewrite (sumf_seq_single _ M m) by (auto; intros k Hk Hne; replace (k =? m)%nat with false by (symmetry; apply Nat.eqb_neq; lia); ring).
        rewrite Nat.eqb_refl.
        assert (S : sqrt (2 / INR N) * sqrt (2 / INR N) = 2 / INR N) by (apply sqrt_sqrt; left; apply Rdiv_lt_0_compat; lra).
        replace ((e * 0 + a m * sqrt (2 / INR N) * (INR N / 2)) * sqrt (2 / INR N))
          with (a m * (INR N / 2) * (sqrt (2 / INR N) * sqrt (2 / INR N))) by ring. rewrite S. field. lra.
      * intros m' Hm'. apply in_seq in Hm'. rewrite sumf_scal_l, dct_orthogonal by lia. reflexivity.
    + intros n Hin. apply in_seq in Hin. rewrite Hn by lia. rewrite Rmult_plus_distr_r. f_equal.
      rewrite <- sumf_scal_r. apply sumf_ext. intros m' _. ring.
  - unfold energy. destruct N as [|N'].
    { destruct x; [|discriminate]. simpl. rewrite Rmult_0_r, sqrt_0. ring. }
    set (N := S N') in *. assert (HN : 0 < INR N) by (apply lt_0_INR; unfold N; lia).
    rewrite rsum_nth, Hx. rewrite (sumf_ext _ (fun n => e + sumf (fun m => a m * (sqrt (2 / INR N) * dct_base N n m)) (seq 0 M)))
      by (intros n Hin; apply in_seq in Hin; apply Hn; lia).
    rewrite sumf_plus, sumf_const, seq_length, sumf_swap.
    rewrite (sumf_zero (fun m => sumf (fun n => a m * (sqrt (2 / INR N) * dct_base N n m)) (seq 0 N))).
    + replace (sqrt (2 * INR N)) with (INR N * sqrt (2 / INR N)); [ring|].
      rewrite <- (sqrt_square (INR N)) at 1 by lra. rewrite <- sqrt_mult by (try nra; left; apply Rdiv_lt_0_compat; lra).
      f_equal. field. lra.
    + intros m Hm. apply in_seq in Hm. rewrite (sumf_ext _ (fun n => a m * sqrt (2 / INR N) * dct_base N n m)) by (intros; ring).
      rewrite sumf_scal_l, dct_sum_zero by lia. ring.
Qed.

(** With as many coefficients as filters the last one is always zero; the
    liftering never cancels a coefficient of index below its length. *)
Theorem C101_lost_coefficient : forall N L x, (0 < N)%nat -> nth (N - 1) (cepstrum N N L x) 0 = 0.
Proof.
  intros N L x H. unfold cepstrum. rewrite (map_nth_lt _ _ _ 0%nat) by (rewrite seq_length; lia). rewrite seq_nth by lia.
  rewrite sumf_zero; [ring|]. intros n _. rewrite Nat.add_0_l, dct_zero_column by auto. ring.
Qed.
Theorem C101_lifter : forall (L m : nat), (m + 1 < L)%nat -> 1 < 1 + INR L / 2 * sin (PI * (1 + INR m) / INR L).
Proof.
  intros L m H. assert (HL : 0 < INR L) by (apply lt_0_INR; lia). assert (Hm := pos_INR m). assert (P := PI_RGT_0).
  assert (HmL : INR m + 1 < INR L) by (rewrite <- S_INR; apply lt_INR; lia).
  assert (0 < sin (PI * (1 + INR m) / INR L)); [|assert (0 < INR L / 2 * sin (PI * (1 + INR m) / INR L)) by (apply Rmult_lt_0_compat; lra); lra].
  apply sin_gt_0.
  - apply Rdiv_lt_0_compat; [apply Rmult_lt_0_compat; lra|auto].
  - apply (Rmult_lt_reg_r (INR L)); auto. unfold Rdiv. rewrite Rmult_assoc, Rinv_l by lra. nra.
Qed.

Example C101_ex : dct_base 2 0 0 = cos (PI / 4) /\ dct_base 2 1 0 = cos (3 * (PI / 4)).
Proof. unfold dct_base. simpl. split; f_equal; field. Qed.

(** ** C102: iterating over a data set *)
Theorem C102_utterances : forall (A : Type) keys shuffle (fea : list ascii -> A) fuel,
  (match shuffle with None => True | Some f => forall l, Permutation l (f l) end) ->
  let ids := utterance_ids keys shuffle in
  (List.length keys < fuel)%nat ->
  (* every utterance once *)
  Permutation keys ids /\
  (shuffle = None -> LocallySorted (fun a b => str_leb a b = true) ids) /\
  loop fuel ids fea 0 = (map (fun u => (u, fea u)) ids, List.length keys) /\
  (* the iterator is then exhausted *)
  loop fuel ids fea (List.length keys) = ([], List.length keys).
Proof.
  intros A keys shuffle fea fuel Hs ids Hf.
  assert (P : Permutation keys ids).
  { unfold ids, utterance_ids. destruct shuffle as [f|]; [|apply sorted_perm].
    eapply Permutation_trans; [apply sorted_perm|apply Hs]. }
  assert (L := Permutation_length P). split; [exact P|]. split.
  - intros ->. apply sorted_sorted.
  - split; [rewrite loop_all, L by lia; reflexivity|]. rewrite loop_all by lia. rewrite skipn_all2 by lia. now rewrite L.
Qed.
Example C102_ex : utterance_ids (map list_ascii_of_string ["b"; "ab"; "a"]%string) None = map list_ascii_of_string ["a"; "ab"; "b"]%string.
Proof. reflexivity. Qed.

Print Assumptions C50_bark.
Print Assumptions C51_frames.
Print Assumptions C52_half_slope_partial.
Print Assumptions C53_order_and_grouping.
Print Assumptions C99_filters_partial.
Print Assumptions C99_sampling_rate_refuted.
Print Assumptions C100_volume.
Print Assumptions C101_coefficients.
Print Assumptions C102_utterances.

(** C159: the feature extraction program (extract.py). *)
From Coq Require Import Reals String List Arith Bool ZArith Lia Lra.
From Verif Require Import Prelude Vec Gibbs Gb_Model Fe_Model Fe_Spec Fe_Proofs Fe_Props Fk_Props Fp_Model.
Import ListNotations.
Local Open Scope R_scope.

(** ** Specification *)
(** Sample [i] without the mean of the signal *)
Definition centred (s : list R) (i : nat) : R := nth i s 0 - sumf (fun x => x) s / INR (length s).
(** Sample [j] of frame [t], after pre-emphasis inside of the frame and windowing *)
Definition stft_sample (p : R) (s : list R) (fl fr t j : nat) : R :=
  (centred s (t * fr + j) - p * centred s (t * fr + (j - 1))) * tap fl j.
Definition stft (p : R) (s : list R) (fl fr N t k : nat) : R :=
  sqrt (sumf (fun j => stft_sample p s fl fr t j * cos (2 * PI * INR j * INR k / INR N)) (seq 0 fl) ^ 2 +
        sumf (fun j => stft_sample p s fl fr t j * sin (2 * PI * INR j * INR k / INR N)) (seq 0 fl) ^ 2).
(** Logarithm of channel [i] of frame [t]: a bin, or a triangle over bins *)
Definition level (c : feaconf) (s : list R) (N : nat) (b : nat -> nat) (t i : nat) : R :=
  ln (1 / 1000000 +
      if apply_fbank c
      then sumf (fun k => stft (preemph c) s (flen c) (frate c) N t k * tri (INR (b i)) (INR (b (i + 1)%nat)) (INR (b (i + 2)%nat)) (INR k))
             (seq 0 (N / 2))
      else stft (preemph c) s (flen c) (frate c) N t i).
Definition channels (c : feaconf) (N : nat) : nat := if apply_fbank c then nfilters c else (N / 2)%nat.
Definition shift (c : feaconf) : nat := if add_energy c then 1%nat else 0%nat.
Definition block (c : feaconf) (N : nat) : nat := (shift c + if apply_dct c then n_dct c else channels c N)%nat.
Definition orders (c : feaconf) : nat := if apply_deltas c then delta_order c else 0%nat.
(** Settings that make sense, [N] being the length of the transform *)
Record sensible (c : feaconf) (N : nat) : Prop := {
  s_frame : (1 < flen c)%nat; s_rate : (0 < frate c)%nat; s_fft : pow2_above (flen c) N;
  s_filters : (0 < nfilters c)%nat;
  s_wide : apply_fbank c = true -> wide_filters (nfilters c) N (lfreq c) (hfreq c);
  s_dct : apply_dct c = true -> channels c N = nfilters c /\ lifter c <> 0;
  s_deltas : apply_deltas c = true -> (0 < delta_winlen c)%nat }.

(** ** Lemmas *)
Lemma remove_dc_nth s i : (i < length s)%nat -> nth i (remove_dc s) 0 = centred s i.
Proof.
  intros H. unfold remove_dc. rewrite (map_nth_lt _ _ _ 0) by auto. unfold centred, mean. do 2 f_equal.
  unfold sumf. now rewrite map_id.
Qed.

Lemma mspec_values signal fl fr p N : (1 < fl)%nat -> (fl <= length signal)%nat -> (0 < fr)%nat -> pow2_above fl N ->
  exists m, short_term_mspec signal fl fr p = Ok (m, N) /\ length m = ((length signal - fl) / fr + 1)%nat /\
    (forall r, In r m -> length r = (N / 2)%nat) /\
    (forall t k, (t < length m)%nat -> (k < N / 2)%nat -> nth k (nth t m []) 0 = stft p signal fl fr N t k).
Proof.
  intros H1 Hlen Hfr HN. destruct (fft_len_above fl N ltac:(lia) HN) as (EN & HE & HN0).
  destruct (C51_frames (remove_dc signal) fl fr Hfr) as (H51 & _ & _).
  assert (Ld : length (remove_dc signal) = length signal) by (unfold remove_dc; apply map_length). rewrite Ld in H51.
  destruct (H51 Hlen) as (frm & Efr & Lfr & Vfr & _). clear H51.
  assert (Lf : forall f, In f frm -> length f = fl).
  { intros f Hin. unfold frames in Efr. replace (fr =? 0)%nat with false in Efr by (symmetry; apply Nat.eqb_neq; lia).
    destruct (_ <? 0)%Z; [discriminate|]. injection Efr as <-. apply in_map_iff in Hin. destruct Hin as (i & <- & _).
    now rewrite map_length, seq_length. }
  exists (map (fun f => magnitude N (windowed (preemphasis p (frame_values f)))) frm).
  split; [|split; [|split] ].
  - unfold short_term_mspec. rewrite Efr. cbn [bindr]. replace (fl =? 0)%nat with false by (symmetry; apply Nat.eqb_neq; lia).
    now rewrite EN.
  - now rewrite map_length.
  - intros r Hr. apply in_map_iff in Hr. destruct Hr as (f & <- & _). apply magnitude_len.
  - intros t k Ht Hk. rewrite map_length in Ht. rewrite (map_nth_lt _ _ _ []) by auto.
    assert (Lt : length (nth t frm []) = fl) by (apply Lf, nth_In; auto).
    set (v := frame_values (nth t frm [])). assert (Lv : length v = fl) by (unfold v, frame_values; now rewrite map_length).
    assert (Vv : forall j, (j < fl)%nat -> nth j v 0 = centred signal (t * fr + j)).
    { intros j Hj. unfold v, frame_values. rewrite (map_nth_lt _ _ _ None) by lia. destruct (Vfr t j Ht Hj) as (B & ->).
      now apply remove_dc_nth. }
    set (y := windowed (preemphasis p v)). assert (Lp : length (preemphasis p v) = fl) by (now rewrite preemphasis_len).
    assert (Ly : length y = fl) by (unfold y, windowed; rewrite map2_length, map_length, seq_length, Lp; lia).
    assert (Vy : forall j, (j < fl)%nat -> nth j y 0 = stft_sample p signal fl fr t j).
    { intros j Hj. unfold y, windowed. rewrite (map2_nth _ _ _ j 0 0 0) by (rewrite ?map_length, ?seq_length, ?Lp; lia).
      rewrite (map_nth_lt _ _ _ 0%nat) by (rewrite seq_length, Lp; lia). rewrite seq_nth by (rewrite Lp; lia). rewrite Lp.
      cbn [Nat.add]. rewrite hamming_tap by lia. unfold stft_sample. f_equal. rewrite preemphasis_nth by lia. unfold emph.
      rewrite !Vv by lia. reflexivity. }
    rewrite magnitude_nth by auto. unfold stft. f_equal. f_equal.
    + unfold dft_re. rewrite Ly. f_equal. apply sumf_ext. intros j Hj. apply in_seq in Hj. rewrite Vy by lia. reflexivity.
    + unfold dft_im. rewrite Ly, sumf_opp. rewrite <- Rsqr_pow2, <- Rsqr_neg, Rsqr_pow2. f_equal.
      apply sumf_ext. intros j Hj. apply in_seq in Hj. rewrite Vy by lia. reflexivity.
Qed.

Lemma matrix_nth dim fea t : matrix dim fea -> (t < length fea)%nat -> length (nth t fea []) = dim.
Proof. unfold matrix. rewrite Forall_forall. intros H Ht. apply H, nth_In. exact Ht. Qed.

(** The logarithms of the channels *)
Lemma levels c N signal : sensible c N -> (flen c <= length signal)%nat ->
  exists (m mel : list (list R)) (b : nat -> nat),
    short_term_mspec signal (flen c) (frate c) (preemph c) = Ok (m, N) /\ filtered c m N = Ok mel /\
    length mel = ((length signal - flen c) / frate c + 1)%nat /\ matrix (channels c N) mel /\
    (apply_fbank c = true -> forall i, (i <= nfilters c + 1)%nat ->
       INR (b i) <= INR N * mel2hz (hz2mel (lfreq c) + INR i * ((hz2mel (hfreq c) - hz2mel (lfreq c)) / INR (nfilters c + 1))) / 16000
         < INR (b i) + 1) /\
    (forall t i, (t < length mel)%nat -> (i < channels c N)%nat ->
       nth i (nth t (map (map log_spec) mel) []) 0 = level c signal N b t i).
Proof.
  intros [H1 Hfr HN Hnf Hw Hd Hdl] Hlen.
  destruct (mspec_values signal (flen c) (frate c) (preemph c) N H1 Hlen Hfr HN) as (m & Em & Lm & Rm & Vm).
  assert (P6 : / 10 ^ 6 = 1 / 1000000) by (simpl; lra).
  exists m. unfold filtered, channels, level. destruct (apply_fbank c) eqn:Ef.
  - destruct (Hw eq_refl) as (Hn & Hlo & Hlt & Hhi & Hs).
    destruct (fft_len_above (flen c) N ltac:(lia) HN) as (EN & HE & HN0).
    destruct (C99_filters_partial (nfilters c) N 16000 (lfreq c) (hfreq c) Hn HN0 HE ltac:(lra) Hlo Hlt ltac:(lra) Hs)
      as (bank & b & Eb & Lb & _ & Bb & Fb & _ & _).
    exists (map (fun row => map (fun w => dot row (map fval_or w)) bank) m), b.
    split; [exact Em|]. rewrite Eb. cbn [bindr]. split; [reflexivity|]. rewrite map_length. split; [exact Lm|]. split; [|split; [intros _; exact Bb|] ].
    + unfold matrix. apply Forall_forall. intros r Hr. apply in_map_iff in Hr. destruct Hr as (f & <- & _). now rewrite map_length.
    + intros t i Ht Hi. rewrite (map_nth_lt _ _ _ []) by (rewrite map_length; auto).
      rewrite (map_nth_lt _ _ _ []) by auto. rewrite (map_nth_lt _ _ _ 0) by (rewrite map_length; lia).
      rewrite (map_nth_lt _ _ _ []) by lia. unfold log_spec. rewrite P6. f_equal. f_equal.
      rewrite (Fb i Hi), map_map.
      assert (Lr : length (nth t m []) = (N / 2)%nat) by (apply Rm, nth_In; auto).
      rewrite dot_nth by (rewrite map_length, seq_length; exact Lr). rewrite Lr. apply sumf_ext. intros k Hk. apply in_seq in Hk.
      rewrite (Vm t k Ht ltac:(lia)). rewrite (map_nth_lt _ _ _ 0%nat) by (rewrite seq_length; lia). now rewrite seq_nth by lia.
  - exists m, (fun _ => 0%nat). split; [exact Em|]. split; [reflexivity|]. split; [exact Lm|].
    split; [unfold matrix; now apply Forall_forall|]. split; [discriminate|].
    intros t i Ht Hi. rewrite (map_nth_lt _ _ _ []) by auto.
    assert (Lr : length (nth t m []) = (N / 2)%nat) by (apply Rm, nth_In; auto).
    rewrite (map_nth_lt _ _ _ 0) by lia. unfold log_spec. rewrite P6. f_equal. f_equal. now apply Vm.
Qed.

Lemma mean_norm_nth dim fea t k : matrix dim fea -> (t < length fea)%nat -> (k < dim)%nat ->
  nth k (nth t (mean_norm dim fea) []) 0 = nth k (nth t fea []) 0 - col_mean k fea.
Proof.
  intros Hm Ht Hk. unfold mean_norm. rewrite (map_nth_lt _ _ _ []) by auto. unfold vsub.
  rewrite (map2_nth Rminus _ _ k 0 0 0) by (rewrite ?map_length, ?seq_length, ?(matrix_nth dim) by auto; auto).
  rewrite (map_nth_lt _ _ _ 0%nat) by (rewrite seq_length; lia). rewrite seq_nth by lia.
  unfold mean, col_mean. now rewrite map_length.
Qed.

Lemma sse_ext fea fea' c c' t w a b : length fea = length fea' ->
  (forall i, (i < length fea)%nat -> nth c (nth i fea []) 0 = nth c' (nth i fea' []) 0) -> fea <> [] ->
  sse fea c t w a b = sse fea' c' t w a b.
Proof.
  intros L H Hne. unfold sse. apply sumf_ext. intros k _. unfold clamped. rewrite <- L. rewrite H; [reflexivity|].
  assert (length fea <> 0)%nat by (destruct fea; [congruence|simpl; lia]). lia.
Qed.

(** ** C159 *)
(** The features of a signal of at least one frame: number of frames and of
    columns, energy, cepstra or channels, derivatives, mean. *)
Theorem C159_features : forall c N signal, sensible c N -> (flen c <= length signal)%nat ->
  exists (raw feats : list (list R)) (b : nat -> nat), extract c signal = Ok feats /\
    (* shape *)
    length raw = ((length signal - flen c) / frate c + 1)%nat /\ length feats = length raw /\
    matrix (block c N * (1 + orders c)) raw /\ matrix (block c N * (1 + orders c)) feats /\
    (* corners of the filters *)
    (apply_fbank c = true -> forall i, (i <= nfilters c + 1)%nat ->
       INR (b i) <= INR N * mel2hz (hz2mel (lfreq c) + INR i * ((hz2mel (hfreq c) - hz2mel (lfreq c)) / INR (nfilters c + 1))) / 16000
         < INR (b i) + 1) /\
    (* static columns *)
    (forall t, (t < length raw)%nat ->
       (add_energy c = true -> nth 0 (nth t raw []) 0 =
          sqrt (2 / INR (nfilters c)) * sumf (level c signal N b t) (seq 0 (channels c N))) /\
       (apply_dct c = false -> forall i, (i < channels c N)%nat -> nth (shift c + i) (nth t raw []) 0 = level c signal N b t i) /\
       (apply_dct c = true -> forall m, (m < n_dct c)%nat -> nth (shift c + m) (nth t raw []) 0 =
          sqrt (2 / INR (nfilters c)) * (1 + lifter c / 2 * sin (PI * (1 + INR m) / lifter c)) *
          sumf (fun i => level c signal N b t i * cos ((INR m + 1) * PI / INR (nfilters c) * (INR i + 1 / 2))) (seq 0 (nfilters c)))) /\
    (* derivatives: twice the value is the slope of the column one block before *)
    (forall t o k, (t < length raw)%nat -> (o < orders c)%nat -> (k < block c N)%nat ->
       ls_slope raw (o * block c N + k) t (delta_winlen c) (2 * nth (S o * block c N + k) (nth t raw []) 0)) /\
    (* mean *)
    (forall t k, (t < length raw)%nat -> (k < block c N * (1 + orders c))%nat ->
       nth k (nth t feats []) 0 = nth k (nth t raw []) 0 - if utt_mnorm c then col_mean k raw else 0).
Proof.
  intros c N signal Hs Hlen. destruct (levels c N signal Hs Hlen) as (m & mel & b & Em & Emel & Lmel & Mmel & Bb & Vl).
  destruct Hs as [H1 Hfr HN Hnf Hw Hd Hdl].
  set (logm := map (map log_spec) mel) in *.
  assert (Llog : length logm = length mel) by (unfold logm; now rewrite map_length).
  assert (Mlog : matrix (channels c N) logm).
  { unfold matrix, logm in *. rewrite Forall_forall in *. intros r Hr. apply in_map_iff in Hr. destruct Hr as (r0 & <- & Hr0).
    rewrite map_length. now apply Mmel. }
  (* cepstra *)
  set (cep := if apply_dct c then map (cepstrum (nfilters c) (n_dct c) (lifter c)) logm else logm).
  assert (Ecep : cepstra c (channels c N) logm = Ok cep).
  { unfold cepstra, cep. destruct (apply_dct c) eqn:E; [|reflexivity]. destruct (Hd eq_refl) as (-> & _). now rewrite Nat.eqb_refl. }
  assert (Lcep : length cep = length mel) by (unfold cep; destruct (apply_dct c); [rewrite map_length|]; exact Llog).
  assert (Mcep : matrix (if apply_dct c then n_dct c else channels c N) cep).
  { unfold cep. destruct (apply_dct c); [|exact Mlog]. unfold matrix. apply Forall_forall. intros r Hr. apply in_map_iff in Hr.
    destruct Hr as (l & <- & _). unfold cepstrum. now rewrite map_length, seq_length. }
  (* energy *)
  set (st := with_energy c logm cep).
  assert (Lst : length st = length mel) by (unfold st, with_energy; destruct (add_energy c); [rewrite map2_length; lia|exact Lcep]).
  assert (Dst : static_dim c (channels c N) = block c N) by (unfold static_dim, block, shift; destruct (add_energy c); lia).
  assert (Nst : forall t, (t < length mel)%nat -> nth t st [] =
     (if add_energy c then [energy (nfilters c) (nth t logm [])] else []) ++ nth t cep []).
  { intros t Ht. unfold st, with_energy. destruct (add_energy c); [|reflexivity].
    rewrite (map2_nth _ _ _ t [] [] []) by lia. reflexivity. }
  assert (Mst : matrix (block c N) st).
  { unfold matrix. apply Forall_forall. intros r Hr. apply In_nth with (d := []) in Hr. destruct Hr as (t & Ht & <-). rewrite Lst in Ht.
    rewrite Nst by auto. rewrite app_length, (matrix_nth _ _ _ Mcep) by lia. unfold block, shift. destruct (add_energy c); reflexivity. }
  assert (Nmel : (0 < length mel)%nat) by (rewrite Lmel; lia).
  assert (Nest : st <> []) by (intros E; rewrite E in Lst; simpl in Lst; lia).
  (* derivatives *)
  assert (RAW : exists raw, (if apply_deltas c then add_deltas (block c N) (repeat (delta_winlen c) (delta_order c)) st else Ok st) = Ok raw /\
     length raw = length mel /\ matrix (block c N * (1 + orders c)) raw /\
     (forall t k, (t < length mel)%nat -> (k < block c N)%nat -> nth k (nth t raw []) 0 = nth k (nth t st []) 0) /\
     (forall t o k, (t < length mel)%nat -> (o < orders c)%nat -> (k < block c N)%nat ->
        ls_slope raw (o * block c N + k) t (delta_winlen c) (2 * nth (S o * block c N + k) (nth t raw []) 0))).
  { unfold orders. destruct (apply_deltas c) eqn:Ed.
    - destruct (C52_shape (block c N) (repeat (delta_winlen c) (delta_order c)) st Mst Nest)
        as (out & blocks & Eo & Lo & Mo & Lb & B0 & BS & Bv). rewrite repeat_length in *.
      assert (LB : forall o, (o <= delta_order c)%nat -> length (nth o blocks []) = length st).
      { intros o. induction o as [|o IH]; intros Ho; [now rewrite B0|]. rewrite BS by lia. rewrite delta_length. apply IH. lia. }
      exists out. split; [exact Eo|]. split; [lia|]. split; [now rewrite Nat.mul_comm|]. split.
      + intros t k Ht Hk. rewrite <- (B0). rewrite <- (Bv 0%nat t k) by lia. reflexivity.
      + intros t o k Ht Ho Hk. rewrite (Bv (S o) t k) by lia. rewrite (BS o Ho). rewrite (nth_indep _ 0%nat (delta_winlen c)), nth_repeat by (rewrite repeat_length; lia).
        assert (X := C52_half_slope_partial (delta_winlen c) (block c N) (nth o blocks []) t k (Hdl eq_refl) ltac:(rewrite LB; lia) Hk).
        destruct X as (a & X). exists a. intros a' b'.
        assert (Q : forall a b, sse out (o * block c N + k) t (delta_winlen c) a b = sse (nth o blocks []) k t (delta_winlen c) a b).
        { intros a0 b0. apply sse_ext.
          - rewrite LB by lia. lia.
          - intros i Hi. apply Bv; lia.
          - intros E. rewrite E in Lo. simpl in Lo. lia. }
        rewrite !Q. apply X.
    - exists st. split; [reflexivity|]. split; [exact Lst|]. split; [now rewrite Nat.add_0_r, Nat.mul_1_r|].
      split; [reflexivity|]. intros; lia. }
  destruct RAW as (raw & Eraw & Lraw & Mraw & Sraw & Draw).
  exists raw, (if utt_mnorm c then mean_norm (final_dim c (channels c N)) raw else raw), b.
  assert (FD : final_dim c (channels c N) = (block c N * (1 + orders c))%nat) by (unfold final_dim; now rewrite Dst).
  split.
  { unfold extract. rewrite Em. cbn [bindr fst snd]. fold (channels c N). rewrite Emel. cbn [bindr].
    replace (nfilters c =? 0)%nat with false by (symmetry; apply Nat.eqb_neq; lia). fold logm. rewrite Ecep. cbn [bindr]. fold st.
    rewrite Dst, Eraw. reflexivity. }
  split; [lia|]. split; [destruct (utt_mnorm c); [unfold mean_norm; now rewrite map_length|reflexivity]|].
  split; [exact Mraw|]. split.
  { destruct (utt_mnorm c); [|exact Mraw]. rewrite FD. unfold matrix, mean_norm. apply Forall_forall. intros r Hr.
    apply in_map_iff in Hr. destruct Hr as (r0 & <- & Hr0). unfold vsub. rewrite map2_length, map_length, seq_length.
    unfold matrix in Mraw. rewrite Forall_forall in Mraw. rewrite (Mraw r0 Hr0). lia. }
  split; [exact Bb|]. split; [|split].
  - intros t Ht. rewrite Lraw in Ht. split; [|split].
    + intros Ee. rewrite Sraw; [|exact Ht|unfold block, shift; rewrite Ee; lia]. rewrite Nst, Ee by auto. cbn [app nth].
      unfold energy. rewrite Rmult_comm. f_equal. rewrite rsum_nth, (matrix_nth _ _ _ Mlog) by lia.
      apply sumf_ext. intros i Hi. apply in_seq in Hi. apply Vl; lia.
    + intros Ed i Hi. rewrite Sraw; [|exact Ht|unfold block; rewrite Ed; lia]. rewrite Nst by auto.
      assert (Q : forall pre : list R, nth (length pre + i) (pre ++ nth t cep [])%list 0 = nth i (nth t cep []) 0)
        by (intros pre; rewrite app_nth2_plus; reflexivity).
      assert (Ls : shift c = length (if add_energy c then [energy (nfilters c) (nth t logm [])] else []))
        by (unfold shift; destruct (add_energy c); reflexivity).
      rewrite Ls, Q. unfold cep. rewrite Ed. apply Vl; lia.
    + intros Ed i Hi. rewrite Sraw; [|exact Ht|unfold block; rewrite Ed; lia]. rewrite Nst by auto.
      assert (Q : forall pre : list R, nth (length pre + i) (pre ++ nth t cep [])%list 0 = nth i (nth t cep []) 0)
        by (intros pre; rewrite app_nth2_plus; reflexivity).
      assert (Ls : shift c = length (if add_energy c then [energy (nfilters c) (nth t logm [])] else []))
        by (unfold shift; destruct (add_energy c); reflexivity).
      rewrite Ls, Q. unfold cep. rewrite Ed. rewrite (map_nth_lt _ _ _ []) by lia. unfold cepstrum.
      rewrite (map_nth_lt _ _ _ 0%nat) by (rewrite seq_length; lia). rewrite seq_nth by lia. cbn [Nat.add].
      rewrite (sumf_ext (fun n => nth n (nth t logm []) 0 * dct_base (nfilters c) n i)
        (fun n => level c signal N b t n * cos ((INR i + 1) * PI / INR (nfilters c) * (INR n + 1 / 2)))); [ring|].
      intros n Hn. apply in_seq in Hn. destruct (Hd Ed) as (Hc & _). rewrite Vl by lia. unfold dct_base. do 3 f_equal. lra.
  - intros t o k Ht. rewrite Lraw in Ht. now apply Draw.
  - intros t k Ht Hk. rewrite Lraw in Ht. destruct (utt_mnorm c); [|ring]. rewrite FD. apply mean_norm_nth; auto. lia.
Qed.

(** A constant added to the signal changes nothing. *)
Theorem C159_offset : forall c signal a, extract c (map (fun x => x + a) signal) = extract c signal.
Proof. intros c signal a. unfold extract. now rewrite C100_offset. Qed.

(** With the normalisation the mean of every column is 0. *)
Theorem C159_mean : forall c N signal feats k, sensible c N -> (flen c <= length signal)%nat -> utt_mnorm c = true ->
  extract c signal = Ok feats -> (k < block c N * (1 + orders c))%nat -> col_mean k feats = 0.
Proof.
  intros c N signal feats k Hs Hlen Hu E Hk.
  destruct (C159_features c N signal Hs Hlen) as (raw & f & b & E' & Lr & Lf & _ & _ & _ & _ & _ & V).
  rewrite E in E'. injection E' as <-. rewrite Hu in V.
  assert (N0 : INR (length raw) <> 0) by (apply not_0_INR; lia).
  unfold col_mean. rewrite Lf.
  assert (S1 : sumf (fun r => nth k r 0) feats = sumf (fun t => nth k (nth t feats []) 0) (seq 0 (length raw))).
  { rewrite <- Lf. clear. induction feats as [|r feats IH]; [reflexivity|]. rewrite sumf_cons. cbn [length seq]. rewrite sumf_cons, IH.
    rewrite <- seq_shift, sumf_map. reflexivity. }
  assert (S2 : sumf (fun t => nth k (nth t raw []) 0) (seq 0 (length raw)) = sumf (fun r => nth k r 0) raw).
  { clear. induction raw as [|r raw IH]; [reflexivity|]. rewrite (sumf_cons _ r raw). cbn [length seq]. rewrite sumf_cons, <- IH.
    rewrite <- seq_shift, sumf_map. reflexivity. }
  rewrite S1. rewrite (sumf_ext _ (fun t => nth k (nth t raw []) 0 - col_mean k raw)).
  - rewrite sumf_minus, sumf_const, seq_length, S2. unfold col_mean. field. exact N0.
  - intros t Ht. apply in_seq in Ht. apply V; [lia|exact Hk].
Qed.

(** Signals shorter than a frame: no frame, which the derivatives do not
    accept, or ValueError. *)
Theorem C159_short : forall c N signal, sensible c N -> (length signal < flen c)%nat ->
  ((flen c <= length signal + frate c)%nat -> orders c = 0%nat -> extract c signal = Ok []) /\
  ((flen c <= length signal + frate c)%nat -> orders c <> 0%nat -> extract c signal = Err IndexError) /\
  ((length signal + frate c < flen c)%nat -> extract c signal = Err ValueError).
Proof.
  intros c N signal [H1 Hfr HN Hnf Hw Hd Hdl] Hl.
  destruct (fft_len_above (flen c) N ltac:(lia) HN) as (EN & HE & HN0).
  destruct (C51_frames (remove_dc signal) (flen c) (frate c) Hfr) as (_ & F1 & F2).
  assert (Ld : length (remove_dc signal) = length signal) by (unfold remove_dc; apply map_length). rewrite Ld in F1, F2.
  assert (Fl : filtered c [] N = Ok []).
  { unfold filtered. destruct (apply_fbank c) eqn:Ef; [|reflexivity]. destruct (Hw eq_refl) as (Hn & Hlo & Hlt & Hhi & Hs).
    destruct (C99_filters_partial (nfilters c) N 16000 (lfreq c) (hfreq c) Hn HN0 HE ltac:(lra) Hlo Hlt ltac:(lra) Hs) as (bank & b & -> & _).
    reflexivity. }
  assert (G : (flen c <= length signal + frate c)%nat -> extract c signal =
    bindr (if apply_deltas c then add_deltas (static_dim c (channels c N)) (repeat (delta_winlen c) (delta_order c)) [] else Ok [])
      (fun f => Ok (if utt_mnorm c then mean_norm (final_dim c (channels c N)) f else f))).
  { intros H. unfold extract, short_term_mspec. rewrite F1 by lia. cbn [bindr].
    replace (flen c =? 0)%nat with false by (symmetry; apply Nat.eqb_neq; lia). cbn [bindr map fst snd]. rewrite EN.
    fold (channels c N). rewrite Fl. cbn [bindr map]. replace (nfilters c =? 0)%nat with false by (symmetry; apply Nat.eqb_neq; lia).
    assert (Ec : cepstra c (channels c N) [] = Ok []).
    { unfold cepstra. destruct (apply_dct c) eqn:E; [|reflexivity]. destruct (Hd eq_refl) as (-> & _). now rewrite Nat.eqb_refl. }
    rewrite Ec. cbn [bindr]. replace (with_energy c [] []) with (@nil (list R)) by (unfold with_energy; now destruct (add_energy c)).
    reflexivity. }
  split; [|split].
  - intros H Ho. rewrite G by auto. unfold orders in Ho. destruct (apply_deltas c); [rewrite Ho|]; cbn; now destruct (utt_mnorm c).
  - intros H Ho. rewrite G by auto. unfold orders in Ho. destruct (apply_deltas c); [|congruence].
    destruct (delta_order c); [congruence|]. reflexivity.
  - intros H. unfold extract, short_term_mspec. now rewrite F2 by lia.
Qed.

(** The cosine transform of the bins themselves (apply_fbank: False) fails,
    unless there happen to be as many bins as filters. *)
Theorem C159_without_filters_refuted : forall c N signal, (1 < flen c)%nat -> (0 < frate c)%nat -> pow2_above (flen c) N ->
  (0 < nfilters c)%nat -> (flen c <= length signal)%nat -> apply_fbank c = false -> apply_dct c = true -> (N / 2)%nat <> nfilters c ->
  extract c signal = Err ValueError.
Proof.
  intros c N signal H1 Hfr HN Hnf Hlen Ef Ed Hne.
  destruct (mspec_values signal (flen c) (frate c) (preemph c) N H1 Hlen Hfr HN) as (m & Em & _).
  unfold extract, filtered, cepstra. rewrite Em, Ef, Ed. cbn [bindr fst snd].
  replace (nfilters c =? 0)%nat with false by (symmetry; apply Nat.eqb_neq; lia).
  replace (N / 2 =? nfilters c)%nat with false by (symmetry; now apply Nat.eqb_neq). reflexivity.
Qed.

(** The number of filters cannot be 0, even if they are not used. *)
Theorem C159_zero_filters_refuted : forall c N signal, (1 < flen c)%nat -> (0 < frate c)%nat -> pow2_above (flen c) N ->
  nfilters c = 0%nat -> (flen c <= length signal)%nat -> apply_fbank c = false ->
  extract c signal = Err ZeroDivisionError.
Proof.
  intros c N signal H1 Hfr HN Hnf Hlen Ef.
  destruct (mspec_values signal (flen c) (frate c) (preemph c) N H1 Hlen Hfr HN) as (m & Em & _).
  unfold extract, filtered. rewrite Em, Ef, Hnf. reflexivity.
Qed.

(** What is read: the words after the identifier, as a command if they end with
    a vertical bar. *)
Theorem C159_source : forall utt w ws, (forall s, (s ++ "|")%string <> String.concat " " (w :: ws)) -> String.concat " " (w :: ws) <> EmptyString ->
  source_of (utt :: w :: ws) = Ok (utt, File (String.concat " " (w :: ws))).
Proof.
  intros utt w ws Hb Hne. unfold source_of. set (s := String.concat " " (w :: ws)) in *.
  assert (G : forall s, match split_last s with None => s = EmptyString | Some (t, a) => s = (t ++ String a EmptyString)%string end).
  { clear. induction s as [|x s IH]; [reflexivity|]. cbn [split_last]. destruct (split_last s) as [ [t a]|]; cbn; now rewrite IH at 1. }
  specialize (G s). destruct (split_last s) as [ [t a]|]; [|contradiction].
  destruct (Ascii.eqb_spec a (Ascii.ascii_of_nat 124)) as [->|Na]; [|reflexivity]. exfalso. now apply (Hb t).
Qed.
Theorem C159_command : forall utt cmd ws, String.concat " " ws = (cmd ++ "|")%string -> source_of (utt :: ws) = Ok (utt, Command cmd).
Proof.
  intros utt cmd ws E. unfold source_of. rewrite E.
  assert (G : forall s : string, split_last (s ++ "|")%string = Some (s, Ascii.ascii_of_nat 124)).
  { clear. induction s as [|x s IH]; [reflexivity|]. cbn [append split_last]. now rewrite IH. }
  rewrite G. reflexivity.
Qed.

(** The program: the lines are treated in order until one fails, and the features
    of the lines before it are saved. *)
Definition line_ok (read : source -> result (nat * list R)) (c : feaconf) (toks : list string) (uf : string * list (list R)) : Prop :=
  exists src signal, source_of toks = Ok (fst uf, src) /\ read src = Ok (srate c, signal) /\ extract c signal = Ok (snd uf).
Definition line_fails (read : source -> result (nat * list R)) (c : feaconf) (toks : list string) (o : outcome) : Prop :=
  (exists e, source_of toks = Err e /\ o = Raised e) \/
  (exists utt src, source_of toks = Ok (utt, src) /\
     ((exists e, read src = Err e /\ o = Raised e) \/
      (exists sr signal, read src = Ok (sr, signal) /\
         ((sr <> srate c /\ o = Exited) \/ (sr = srate c /\ exists e, extract c signal = Err e /\ o = Raised e))))).
Definition known (keys : list string) : Prop := Forall (fun k => In k known_keys) keys.

Lemma extract_loop_ok read c l1 ufs rest saved n : Forall2 (line_ok read c) l1 ufs ->
  extract_loop read c (l1 ++ rest) saved n =
  extract_loop read c rest (fold_left (fun d uf => sset (fst uf) (snd uf) d) ufs saved) (n + length l1).
Proof.
  intros H. revert saved n. induction H as [|l uf l1 ufs (src & sg & E1 & E2 & E3) H IH]; intros saved n; cbn [app fold_left length].
  - now rewrite Nat.add_0_r.
  - cbn [extract_loop]. rewrite E1, E2, Nat.eqb_refl. cbn [negb]. rewrite E3, IH. f_equal. lia.
Qed.

Theorem C159_program : forall read keys c lines, known keys -> (0 < nfilters c)%nat ->
  exists l1 ufs, Forall2 (line_ok read c) l1 ufs /\
    ((lines = l1 /\ extract_main read keys c lines =
        (fold_left (fun d uf => sset (fst uf) (snd uf) d) ufs [], Finished (length l1))) \/
     (exists l l2 o, lines = l1 ++ l :: l2 /\ line_fails read c l o /\
        extract_main read keys c lines = (fold_left (fun d uf => sset (fst uf) (snd uf) d) ufs [], o))).
Proof.
  intros read keys c lines Hk Hn.
  assert (K : forallb (fun k => existsb (String.eqb k) known_keys) keys = true).
  { apply forallb_forall. intros k H. unfold known in Hk. rewrite Forall_forall in Hk. apply existsb_exists. exists k.
    split; [now apply Hk|apply String.eqb_refl]. }
  unfold extract_main. rewrite K. replace (nfilters c =? 0)%nat with false by (symmetry; apply Nat.eqb_neq; lia). cbn [andb]. clear K.
  assert (G : exists l1 ufs, Forall2 (line_ok read c) l1 ufs /\ (lines = l1 \/ exists l l2 o, lines = l1 ++ l :: l2 /\ line_fails read c l o)).
  { induction lines as [|l lines (l1 & ufs & F & IH)]; [exists [], []; split; [constructor|now left]|].
    assert (D : (exists uf, line_ok read c l uf) \/ exists o, line_fails read c l o).
    { destruct (source_of l) as [ [utt src]|e] eqn:E1; [|right; exists (Raised e); left; eauto].
      destruct (read src) as [ [sr sg]|e] eqn:E2; [|right; exists (Raised e); right; exists utt, src; split; [auto|left; eauto] ].
      destruct (Nat.eq_dec sr (srate c)) as [->|Ns].
      - destruct (extract c sg) as [f|e] eqn:E3; [left; exists (utt, f), src, sg; auto|].
        right. exists (Raised e). right. exists utt, src. split; [auto|]. right. exists (srate c), sg. split; [auto|]. right. eauto.
      - right. exists Exited. right. exists utt, src. split; [auto|]. right. exists sr, sg. split; [auto|]. now left. }
    destruct D as [(uf & D)|(o & D)].
    - exists (l :: l1), (uf :: ufs). split; [now constructor|]. destruct IH as [->|(x & l2 & o & -> & Hx)]; [now left|].
      right. exists x, l2, o. split; [reflexivity|exact Hx].
    - exists [], []. split; [constructor|]. right. exists l, lines, o. auto. }
  destruct G as (l1 & ufs & F & [->|(l & l2 & o & -> & Ho)]); exists l1, ufs; (split; [exact F|]).
  - left. split; [reflexivity|]. rewrite <- (app_nil_r l1) at 1. rewrite (extract_loop_ok read c l1 ufs [] [] 0 F). reflexivity.
  - right. exists l, l2, o. split; [reflexivity|]. split; [exact Ho|]. rewrite (extract_loop_ok read c l1 ufs (l :: l2) [] 0 F).
    cbn [extract_loop]. destruct Ho as [(e & -> & ->)|(utt & src & -> & [(e & -> & ->)|(sr & sg & -> & [(Ns & ->)|(-> & e & Ex & ->)])])]; auto.
    + apply Nat.eqb_neq in Ns. rewrite Ns. reflexivity.
    + rewrite Nat.eqb_refl. cbn [negb]. now rewrite Ex.
Qed.

Theorem C159_unknown_setting : forall read keys c lines k, In k keys -> ~ In k known_keys ->
  extract_main read keys c lines = ([], Exited).
Proof.
  intros read keys c lines k Hk Hn. unfold extract_main. destruct (forallb _ keys) eqn:E; [|reflexivity]. exfalso.
  rewrite forallb_forall in E. specialize (E k Hk). apply existsb_exists in E. destruct E as (x & Hx & E). apply String.eqb_eq in E.
  subst x. contradiction.
Qed.

(** A constant signal, two frames of two bins with their energy *)
Definition ex_conf : feaconf :=
  {| srate := 16; preemph := 97 / 100; flen := 2; frate := 2; apply_fbank := false; nfilters := 2; hfreq := 8000; lfreq := 20;
     apply_deltas := false; delta_order := 2; delta_winlen := 2; apply_dct := false; n_dct := 13; lifter := 22;
     utt_mnorm := false; add_energy := true |}.
Lemma ex_sensible : sensible ex_conf 4.
Proof. constructor; cbn; try lia; try discriminate. exists 2%nat. simpl. lia. Qed.
Example ex_C159 : exists feats, extract ex_conf [5; 5; 5; 5] = Ok feats /\ length feats = 2%nat /\
  nth 1 feats [] = [2 * ln (1 / 1000000); ln (1 / 1000000); ln (1 / 1000000)].
Proof.
  destruct (C159_features ex_conf 4 [5; 5; 5; 5] ex_sensible ltac:(simpl; lia)) as (raw & feats & b & E & Lr & Lf & _ & Mf & _ & St & _ & V).
  assert (L2 : length raw = 2%nat) by (rewrite Lr; reflexivity).
  exists feats. split; [exact E|]. split; [lia|].
  assert (L3 : length (nth 1 feats []) = 3%nat) by (apply (matrix_nth _ _ 1 Mf); lia).
  assert (Lev : forall i, level ex_conf [5; 5; 5; 5] 4 b 1 i = ln (1 / 1000000)).
  { intros i. unfold level. cbn [apply_fbank ex_conf preemph flen frate]. f_equal. rewrite <- (Rplus_0_r (1 / 1000000)) at 2. f_equal.
    unfold stft, sumf. cbn [seq map rsum]. unfold stft_sample, centred, sumf. cbn [Nat.mul Nat.add Nat.sub nth map rsum length].
    replace (INR 4) with 4 by (simpl; ring). replace (5 - (5 + (5 + (5 + (5 + 0)))) / 4) with 0 by lra.
    match goal with |- sqrt ?q = 0 => replace q with 0 by ring end. apply sqrt_0. }
  destruct (St 1%nat ltac:(lia)) as (H0 & H1 & _). specialize (H0 eq_refl). specialize (H1 eq_refl).
  cbn [channels ex_conf apply_fbank shift add_energy nfilters Nat.add] in H0, H1. change (4 / 2)%nat with 2%nat in H0, H1.
  assert (F : forall k, (k < 3)%nat -> nth k (nth 1 feats []) 0 = nth k (nth 1 raw []) 0).
  { intros k Hk. rewrite (V 1%nat k) by (try lia; exact Hk). cbn [ex_conf utt_mnorm]. ring. }
  assert (V1 := H1 0%nat ltac:(lia)). assert (V2 := H1 1%nat ltac:(lia)). rewrite Lev in V1, V2. cbn [shift ex_conf add_energy Nat.add] in V1, V2.
  rewrite <- F in V1, V2, H0 by lia.
  destruct (nth 1 feats []) as [|x0 [|x1 [|x2 [|x3 l] ] ] ]; try discriminate L3. cbn [nth] in *. rewrite V1, V2. f_equal. rewrite H0.
  unfold sumf. cbn [seq map rsum]. rewrite !Lev. change (INR 2) with 2. replace (2 / 2) with 1 by lra. rewrite sqrt_1. ring.
Qed.
Example ex_C159_program : forall f, extract ex_conf [5; 5; 5; 5] = Ok f ->
  extract_main (fun s => match s with Command "sox a.wav -" => Ok (16%nat, [5; 5; 5; 5]) | _ => Ok (8%nat, []) end)
    ["srate"; "add_energy"]%string ex_conf [["u1"; "sox"; "a.wav"; "-|"]; ["u2"; "b.wav"]; ["u3"; "sox"; "a.wav"; "-|"]]%string =
  ([("u1"%string, f)], Exited).
Proof.
  intros f E. unfold extract_main. cbn [forallb existsb known_keys String.eqb Ascii.eqb Bool.eqb andb orb].
  cbn [nfilters ex_conf Nat.eqb andb]. unfold extract_loop. cbn [source_of]. 
  cbn [String.concat append split_last Ascii.eqb Ascii.ascii_of_nat Ascii.ascii_of_pos Bool.eqb].
  cbn -[extract Nat.eqb]. rewrite Nat.eqb_refl. cbn [negb]. rewrite E. reflexivity.
Qed.

Print Assumptions C159_features.
Print Assumptions C159_offset.
Print Assumptions C159_mean.
Print Assumptions C159_short.
Print Assumptions C159_without_filters_refuted.
Print Assumptions C159_source.
Print Assumptions C159_command.
Print Assumptions C159_program.
Print Assumptions C159_unknown_setting.

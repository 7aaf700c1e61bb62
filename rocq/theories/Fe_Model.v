(** Model of beer/features.py, of the feature transformations in
    beer/cli/subcommands/features/extract.py, of the corpus statistics in
    beer/cli/subcommands/dataset/create.py and of beer/cli/dataset.py.

    Audio samples and features are real numbers (no rounding).  Durations are
    given in samples: [flen] stands for int(srate * flen), [frate] for
    int(srate * frate). *)
From Coq Require Import Reals List Arith Bool ZArith Ascii.
From Verif Require Import Prelude Vec.
Import ListNotations.
Local Open Scope R_scope.

(** ** Frequency scales *)
(** features.py 10-12 *)
Definition hz2mel (f : R) : R := 1127 * ln (1 + f / 700).
(** features.py 15-17 *)
Definition mel2hz (m : R) : R := 700 * (exp (m / 1127) - 1).
(** features.py 21-23 *)
Definition hz2bark (f : R) : R := (2981 / 100 * f) / (1960 + f) - 53 / 100.
(** features.py 26-28 *)
Definition bark2hz (b : R) : R := (1960 * (b + 53 / 100)) / (2981 / 100 - b - 53 / 100).

(** ** Filter bank *)

(** Entries of a filter.  [FNaN]: inf * 0 in floating point. *)
Inductive fval : Type := FNaN | FVal (r : R).

(** numpy.linspace(a, b, n), entry k *)
Definition linspace (a b : R) (n k : nat) : R :=
  if (n =? 1)%nat then a else a + INR k * ((b - a) / INR (n - 1)).

Definition Rleb (a b : R) : bool := if Rle_dec a b then true else false.

(** One side of a triangle, features.py 35-42: the selected bins, then the
    values written there.  An empty selection raises IndexError
    ([freqs[idxs][0]]).  [up]: distance to [base] measured from below. *)
Definition side_value (slope_den base : R) (up : bool) (first last : nat) (n k : nat) : fval :=
  if Req_EM_T slope_den 0 then FNaN
  else let d := fun f : nat => if up then INR f - base else base - INR f in
       FVal (linspace (/ slope_den * d first) (/ slope_den * d last) n k).

Definition write_side (lo hi slope_den base : R) (up : bool) (nbins : nat) (vals : list fval)
  : result (list fval) :=
  let idxs := filter (fun f => Rleb lo (INR f) && Rleb (INR f) hi) (seq 0 nbins) in
  match idxs with
  | [] => Err IndexError
  | first :: _ =>
      let last := List.last idxs 0%nat in
      Ok (map (fun f =>
                 if Rleb lo (INR f) && Rleb (INR f) hi
                 then side_value slope_den base up first last (length idxs) (f - first)
                 else nth f vals (FVal 0)) (seq 0 nbins))
  end.

(** features.py 31-43.  With [center = start] the numpy slope is infinite and
    the only selected bin (if any) is [center], where inf * 0 is NaN; it is
    overwritten by the second side. *)
Definition triangle (center start end_ : R) (nbins : nat) : result (list fval) :=
  bindr (write_side start center (center - start) start true nbins (repeat (FVal 0) nbins)) (fun v1 =>
  write_side center end_ (end_ - center) end_ false nbins v1).

(** features.py 66-73; [highfreq] is given (the default is srate / 2).  The
    floor is [Int_part]. *)
Definition centers (nfilters fft_len : nat) (srate lowfreq highfreq : R)
  (hz2scale scale2hz : R -> R) (align : bool) : list R :=
  let low := hz2scale lowfreq in
  let high := hz2scale highfreq in
  map (fun i =>
         let c := INR fft_len * scale2hz (linspace low high (nfilters + 2) i) / srate in
         if align then IZR (Int_part c) else c) (seq 0 (nfilters + 2)).

(** features.py 74-79 *)
Definition create_fbank (nfilters fft_len : nat) (srate lowfreq highfreq : R)
  (hz2scale scale2hz : R -> R) (align : bool) : result (list (list fval)) :=
  let cs := centers nfilters fft_len srate lowfreq highfreq hz2scale scale2hz align in
  mapM (fun i => triangle (nth i cs 0) (nth (i - 1) cs 0) (nth (i + 1) cs 0) (fft_len / 2)%nat)
    (seq 1 nfilters).

(** ** Framing *)

(** features.py 125-133 and 179-191: number of frames, then the reads
    performed through [as_strided] on the memory of the signal; frame [i],
    sample [j] is the sample [i * frate + j], [None] when it lies outside.
    A zero [frate] raises ZeroDivisionError, a negative number of frames
    ValueError. *)
Definition n_frames (len flen frate : nat) : Z :=
  ((Z.of_nat len - Z.of_nat flen) / Z.of_nat frate + 1)%Z.
Definition frames (signal : list R) (flen frate : nat) : result (list (list (option R))) :=
  if (frate =? 0)%nat then Err ZeroDivisionError
  else let n := n_frames (length signal) flen frate in
       if (n <? 0)%Z then Err ValueError
       else Ok (map (fun i => map (fun j => nth_error signal (i * frate + j)) (seq 0 flen)) (seq 0 (Z.to_nat n))).

(** Content of a frame; reads outside of the signal give unspecified values,
    here 0.  C51 shows that there are none. *)
Definition frame_values (f : list (option R)) : list R :=
  map (fun o => match o with Some r => r | None => 0 end) f.

(** features.py 119 *)
Definition mean (l : list R) : R := rsum l / INR (length l).
Definition remove_dc (signal : list R) : list R := map (fun x => x - mean signal) signal.

(** x[0] - p x[0], x[j] - p x[j-1] (features.py 136, per frame; 184, whole signal) *)
Definition preemphasis (p : R) (x : list R) : list R :=
  map2 (fun a b => a - p * b) x (match x with [] => [] | a :: _ => a :: removelast x end).

(** numpy.hamming *)
Definition hamming (m n : nat) : R :=
  if (m =? 1)%nat then 1 else 54 / 100 - 46 / 100 * cos (2 * PI * INR n / INR (m - 1)).

(** features.py 142, 197: int(2 ** floor(log2(flen) + 1)) *)
Definition fft_len (flen : nat) : nat := 2 ^ Z.to_nat (Int_part (ln (INR flen) / ln 2 + 1)).

(** |rfft(x, n)| without the last bin: bins 0 .. n/2 - 1 (n even) *)
Definition dft_re (n k : nat) (x : list R) : R :=
  sumf (fun j => nth j x 0 * cos (2 * PI * INR j * INR k / INR n)) (seq 0 (length x)).
Definition dft_im (n k : nat) (x : list R) : R :=
  sumf (fun j => - (nth j x 0 * sin (2 * PI * INR j * INR k / INR n))) (seq 0 (length x)).
Definition magnitude (n : nat) (x : list R) : list R :=
  map (fun k => sqrt (dft_re n k x ^ 2 + dft_im n k x ^ 2)) (seq 0 (n / 2)).

Definition windowed (x : list R) : list R :=
  map2 Rmult x (map (hamming (length x)) (seq 0 (length x))).

(** features.py 102-143.  A frame length of 0 raises IndexError
    ([sframes[:, 0]]). *)
Definition short_term_mspec (signal : list R) (flen frate : nat) (preemph : R)
  : result (list (list R) * nat) :=
  bindr (frames (remove_dc signal) flen frate) (fun fr =>
  if (flen =? 0)%nat then Err IndexError
  else Ok (map (fun f => magnitude (fft_len flen) (windowed (preemphasis preemph (frame_values f)))) fr,
           fft_len flen)).

(** features.py 145-204, with a filter bank without NaN.  The filters are
    those of the default sampling rate: [srate] is not passed on (line 201).
    An empty signal raises IndexError, a frame length of 0 ValueError. *)
Definition fval_or (v : fval) : R := match v with FVal r => r | FNaN => 0 end.
Definition fbank (signal : list R) (srate : R) (flen frate : nat) (lowfreq highfreq : R) (nfilters : nat)
  (preemph : R) : result (list (list R)) :=
  match signal with
  | [] => if (frate =? 0)%nat then Err ZeroDivisionError else Err IndexError
  | _ =>
    bindr (frames (preemphasis preemph signal) flen frate) (fun fr =>
    if (flen =? 0)%nat then Err ValueError
    else bindr (create_fbank nfilters (fft_len flen) 16000 lowfreq highfreq hz2mel mel2hz true) (fun filters =>
    Ok (map (fun f => let mag := magnitude (fft_len flen) (windowed (frame_values f)) in
                      map (fun w => ln (dot mag (map fval_or w) + 1)) filters) fr)))
  end.

(** ** Derivatives *)

(** features.py 94-99: one pass.  [lfilter] with zero initial state, first
    2 * wlen outputs dropped.  The filter is 0/0 for wlen = 0 in numpy. *)
Definition dfilter (w : nat) : list R :=
  let d := map (fun k => INR w - INR k) (seq 0 (2 * w + 1)) in
  map (fun x => x / (2 * dot d d)) d.
(** y[t] = sum_k b[k] x[t - k], rows as vectors *)
Definition lfilter (b : list R) (x : list (list R)) (dim t : nat) : list R :=
  map (fun c => sumf (fun k => if (k <=? t)%nat then nth k b 0 * nth c (nth (t - k) x []) 0 else 0)
                  (seq 0 (length b))) (seq 0 dim).
Definition delta (w dim : nat) (fea : list (list R)) : list (list R) :=
  let padded := repeat (hd [] fea) w ++ fea ++ repeat (last fea []) w in
  map (fun t => lfilter (dfilter w) padded dim (2 * w + t)) (seq 0 (length fea)).

(** features.py 82-100 *)
Fixpoint deltas (dim : nat) (winlens : list nat) (fea : list (list R)) : list (list (list R)) :=
  match winlens with
  | [] => [fea]
  | w :: ws => fea :: deltas dim ws (delta w dim fea)
  end.
Definition hstack (l : list (list (list R))) (n : nat) : list (list R) :=
  map (fun t => concat (map (fun m => nth t m []) l)) (seq 0 n).
Definition add_deltas (dim : nat) (winlens : list nat) (fea : list (list R)) : result (list (list R)) :=
  match winlens, fea with
  | _ :: _, [] => Err IndexError
  | _, _ => Ok (hstack (deltas dim winlens fea) (length fea))
  end.

(** ** extract.py *)

(** extract.py 36-40: entry (n, m) *)
Definition dct_base (nfilters n m : nat) : R :=
  cos ((INR m + 1) * PI / INR nfilters * (INR n + / 2)).
(** extract.py 131-145, one frame: cosine transform, normalisation, liftering *)
Definition cepstrum (nfilters n_dct : nat) (lifter : R) (log_melspec : list R) : list R :=
  map (fun m => sumf (fun n => nth n log_melspec 0 * dct_base nfilters n m) (seq 0 nfilters)
                * sqrt (2 / INR nfilters)
                * (1 + lifter / 2 * sin (PI * (1 + INR m) / lifter))) (seq 0 n_dct).
(** extract.py 150-153 *)
Definition energy (nfilters : nat) (log_melspec : list R) : R := rsum log_melspec * sqrt (2 / INR nfilters).
(** extract.py 163-166: the mean of every column is subtracted *)
Definition mean_norm (dim : nat) (fea : list (list R)) : list (list R) :=
  let m := map (fun c => mean (map (fun r => nth c r 0) fea)) (seq 0 dim) in
  map (fun r => vsub r m) fea.

(** ** dataset/create.py *)

(** create.py 23-38: accumulated sums, squares, counts.  [dim] is the number of
    columns of the first utterance; an empty archive raises IndexError.  With
    no frame at all numpy divides 0 by 0. *)
Record corpus_stats : Type := { cs_mean : list R; cs_var : list R; cs_count : nat }.
Definition col_sums (dim : nat) (f : R -> R) (utt : list (list R)) : list R :=
  map (fun c => rsum (map (fun r => f (nth c r 0)) utt)) (seq 0 dim).
Definition accumulate (dim : nat) (utts : list (list (list R))) : result corpus_stats :=
  match utts with
  | [] => Err IndexError
  | _ =>
    let '(s, s2, n) := fold_left (fun '(s, s2, n) utt =>
        (vadd s (col_sums dim (fun x => x) utt), vadd s2 (col_sums dim (fun x => x ^ 2) utt), (n + length utt)%nat))
        utts (repeat 0 dim, repeat 0 dim, 0%nat) in
    let m := map (fun x => x / INR n) s in
    Ok {| cs_mean := m; cs_var := map2 (fun q mu => q / INR n - mu ^ 2) s2 m; cs_count := n |}
  end.

(** ** cli/dataset.py *)
Notation str := (list ascii).

(** Comparison of strings by code points *)
Fixpoint str_leb (a b : str) : bool :=
  match a, b with
  | [], _ => true
  | _, [] => false
  | x :: a', y :: b' =>
      if (nat_of_ascii x <? nat_of_ascii y)%nat then true
      else if (nat_of_ascii y <? nat_of_ascii x)%nat then false
      else str_leb a' b'
  end.
(** sorted() by insertion *)
Fixpoint insert (x : str) (l : list str) : list str :=
  match l with [] => [x] | y :: l' => if str_leb x y then x :: l else y :: insert x l' end.
Definition sorted (l : list str) : list str := fold_right insert [] l.

(** dataset.py 62-76: the ids, in the order of iteration; [shuffle] is the effect
    of random.shuffle *)
Definition utterance_ids (keys : list str) (shuffle : option (list str -> list str)) : list str :=
  match shuffle with None => sorted keys | Some f => f (sorted keys) end.

(** UtteranceIterator: state = index (dataset.py 18-34).  [next] yields the
    utterance and the new state, or stops. *)
Definition next {A : Type} (utts : list str) (fea : str -> A) (idx : nat) : option ((str * A) * nat) :=
  match nth_error utts idx with
  | None => None
  | Some u => Some ((u, fea u), S idx)
  end.
(** A for loop: call next until StopIteration; [fuel] bounds the calls *)
Fixpoint loop {A : Type} (fuel : nat) (utts : list str) (fea : str -> A) (idx : nat) : list (str * A) * nat :=
  match fuel with
  | O => ([], idx)
  | S fuel' => match next utts fea idx with
               | None => ([], idx)
               | Some (u, i) => let '(l, j) := loop fuel' utts fea i in (u :: l, j)
               end
  end.

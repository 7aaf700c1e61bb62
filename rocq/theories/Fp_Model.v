(** Model of the feature extraction as a program:
    /repo/beer/cli/subcommands/features/extract.py, on top of Fe_Model.
    (/repo/recipes/timit_v2/utils/features-extract-parallel.py is an older copy
    without energy.)

    - Exact reals; the durations are in samples, int(srate * duration).
    - Signals have one channel.  The filter bank has no NaN (C99) and the cut-off
      frequencies are not 0.
    - The YAML file is the list of its keys and the resulting settings; wav files
      and commands are read by an arbitrary function. *)
From Coq Require Import Reals String List Arith Bool.
From Verif Require Import Prelude Vec Gb_Model Fe_Model.
Import ListNotations.
Local Open Scope R_scope.

(** extract.py 16-33 *)
Record feaconf : Type := {
  srate : nat; preemph : R; flen : nat; frate : nat;
  apply_fbank : bool; nfilters : nat; hfreq : R; lfreq : R;
  apply_deltas : bool; delta_order : nat; delta_winlen : nat;
  apply_dct : bool; n_dct : nat; lifter : R; utt_mnorm : bool; add_energy : bool }.

Definition known_keys : list string :=
  ["srate"; "preemph"; "window_len"; "framerate"; "apply_fbank"; "nfilters"; "cutoff_hfreq"; "cutoff_lfreq";
   "apply_deltas"; "delta_order"; "delta_winlen"; "apply_dct"; "n_dct_coeff"; "lifter_coeff"; "utt_mnorm"; "add_energy"]%string.

(** extract.py 113-118: the filters are those of 16 kHz ([srate] is not passed on) *)
Definition filtered (c : feaconf) (mspec : list (list R)) (N : nat) : result (list (list R)) :=
  if apply_fbank c
  then bindr (create_fbank (nfilters c) N 16000 (lfreq c) (hfreq c) hz2mel mel2hz true) (fun bank =>
       Ok (map (fun row => map (fun w => dot row (map fval_or w)) bank) mspec))
  else Ok mspec.

(** extract.py 122 *)
Definition log_spec (x : R) : R := ln (/ 10 ^ 6 + x).

(** extract.py 129-145: the matrix product needs as many columns as filters
    ([width] is the number of columns of the spectrum) *)
Definition cepstra (c : feaconf) (width : nat) (logm : list (list R)) : result (list (list R)) :=
  if apply_dct c
  then if (width =? nfilters c)%nat then Ok (map (cepstrum (nfilters c) (n_dct c) (lifter c)) logm) else Err ValueError
  else Ok logm.

(** extract.py 148-151 *)
Definition with_energy (c : feaconf) (logm feats : list (list R)) : list (list R) :=
  if add_energy c then map2 (fun l f => energy (nfilters c) l :: f) logm feats else feats.

(** Number of columns before the derivatives, and after them *)
Definition static_dim (c : feaconf) (width : nat) : nat :=
  ((if apply_dct c then n_dct c else width) + (if add_energy c then 1 else 0))%nat.
Definition final_dim (c : feaconf) (width : nat) : nat :=
  (static_dim c width * (1 + if apply_deltas c then delta_order c else 0))%nat.

(** extract.py 104-166: the features of one signal.  Without filter the norm
    2 / nfilters raises ZeroDivisionError, even if it is not used. *)
Definition extract (c : feaconf) (signal : list R) : result (list (list R)) :=
  bindr (short_term_mspec signal (flen c) (frate c) (preemph c)) (fun mN =>
  let width := if apply_fbank c then nfilters c else (snd mN / 2)%nat in
  bindr (filtered c (fst mN) (snd mN)) (fun mel =>
  if (nfilters c =? 0)%nat then Err ZeroDivisionError else
  let logm := map (map log_spec) mel in
  bindr (cepstra c width logm) (fun feats =>
  let feats := with_energy c logm feats in
  bindr (if apply_deltas c then add_deltas (static_dim c width) (repeat (delta_winlen c) (delta_order c)) feats
         else Ok feats) (fun feats =>
  Ok (if utt_mnorm c then mean_norm (final_dim c width) feats else feats))))).

(** What a line asks for: a file, or a command if the last character is '|'
    (extract.py 87-96).  inwav[-1] of a line without file name: IndexError. *)
Inductive source : Type := File (path : string) | Command (cmd : string).
Fixpoint split_last (s : string) : option (string * Ascii.ascii) :=
  match s with
  | EmptyString => None
  | String a s' => match split_last s' with
                   | None => Some (EmptyString, a)
                   | Some (t, b) => Some (String a t, b)
                   end
  end.
Definition source_of (toks : list string) : result (string * source) :=
  match toks with
  | [] => Err IndexError
  | utt :: rest =>
    let inwav := String.concat " " rest in
    match split_last inwav with
    | None => Err IndexError
    | Some (cmd, ch) => Ok (utt, if Ascii.eqb ch (Ascii.ascii_of_nat 124) then Command cmd else File inwav)
    end
  end.

Inductive outcome : Type := Finished (counts : nat) | Exited | Raised (e : exn).

(** extract.py 83-173: the saved files and how the program ends *)
Fixpoint extract_loop (read : source -> result (nat * list R)) (c : feaconf) (lines : list (list string))
    (saved : list (string * list (list R))) (counts : nat) : list (string * list (list R)) * outcome :=
  match lines with
  | [] => (saved, Finished counts)
  | toks :: rest =>
    match source_of toks with
    | Err e => (saved, Raised e)
    | Ok (utt, src) =>
      match read src with
      | Err e => (saved, Raised e)
      | Ok (sr, signal) =>
        if negb (sr =? srate c)%nat then (saved, Exited)
        else match extract c signal with
             | Err e => (saved, Raised e)
             | Ok f => extract_loop read c rest (sset utt f saved) (S counts)
             end
      end
    end
  end.

(** extract.py 60-75: an unknown setting ends the program; compute_dct_bases
    divides by the number of filters *)
Definition extract_main (read : source -> result (nat * list R)) (keys : list string) (c : feaconf)
    (lines : list (list string)) : list (string * list (list R)) * outcome :=
  if forallb (fun k => existsb (String.eqb k) known_keys) keys
  then if (nfilters c =? 0)%nat && negb (n_dct c =? 0)%nat then ([], Raised ZeroDivisionError)
       else extract_loop read c lines [] 0
  else ([], Exited).

(** Model of recipes/aud/utils/maxoverlap_mapping.py, maptrans.py, nmi.py and
    entropy_rate.py.  Unit/phone names and utterance ids are natural numbers;
    dictionaries are association lists in insertion order.  Real numbers are
    exact. *)
From Coq Require Import List Arith Bool Reals.
From Verif Require Import Prelude Edit_Model Dec_Model.
Import ListNotations.

Definition dget0 {V} (v0 : V) (d : list (nat * V)) (k : nat) : V :=
  match dget Nat.eq_dec d k with Some v => v | None => v0 end.

(** maxoverlap_mapping.py:38  counts[hyp_unit][ref_unit] += 1 on nested
    defaultdicts *)
Definition count_pair (counts : list (nat * list (nat * nat))) (rh : nat * nat)
  : list (nat * list (nat * nat)) :=
  let (r, h) := rh in
  let inner := dget0 [] counts h in
  dset counts h (dset inner r (dget0 0 inner r + 1)).

(** maxoverlap_mapping.py:35-38; hyp_align[utt] raises KeyError *)
Definition overlap_counts (ref hyp : list (nat * list nat))
  : result (list (nat * list (nat * nat))) :=
  foldM (fun counts ur =>
    match dget Nat.eq_dec hyp (fst ur) with
    | None => Err KeyError
    | Some h => Ok (fold_left count_pair (combine (snd ur) h) counts)
    end) ref [].

(** max(label_counts, key=label_counts.get): the first key of maximal value *)
Fixpoint max_key_from (bk bv : nat) (d : list (nat * nat)) : nat :=
  match d with
  | [] => bk
  | (k, v) :: t => if bv <? v then max_key_from k v t else max_key_from bk bv t
  end.
Definition max_key (d : list (nat * nat)) : result nat :=
  match d with [] => Err ValueError | (k, v) :: t => Ok (max_key_from k v t) end.

(** maxoverlap_mapping.py:50-51 *)
Definition overlap_mapping (ref hyp : list (nat * list nat)) : result (list (nat * nat)) :=
  bindr (overlap_counts ref hyp) (fun counts =>
    mapM (fun uc => bindr (max_key (snd uc)) (fun p => Ok (fst uc, p))) counts).

(** maptrans.py:30-44; unk = None is the empty string *)
Definition map_token (mapping : list (nat * nat)) (unk : option nat) (tok : nat) : result nat :=
  match dget Nat.eq_dec mapping tok with
  | Some t => Ok t
  | None => match unk with Some u => Ok u | None => Err KeyError end
  end.
Definition map_trans (trans : list (nat * list nat)) (mapping : list (nat * nat))
    (unk : option nat) : result (list (nat * list nat)) :=
  mapM (fun ut => bindr (mapM (map_token mapping unk) (snd ut)) (fun l => Ok (fst ut, l))) trans.

Local Open Scope R_scope.

(** np.log2 on positive numbers *)
Definition log2 (x : R) : R := ln x / ln 2.

(** nmi.py:28-33.  The matrix is indexed by names instead of the position of
    the name in au_set / phone_set (lists without duplicates).  eps is 1e-37. *)
Definition nmi_counts (eps : R) (table : list (nat * list (nat * nat))) (a b : nat) : R :=
  fold_left (fun c (e : nat * list (nat * nat)) =>
    fold_left (fun c pc => if Nat.eq_dec a (fst e) then
                             if Nat.eq_dec b (fst pc) then c + INR (snd pc) else c
                           else c) (snd e) c) table eps.

Section NMI.
Variables (eps : R) (X Y : list nat) (c : nat -> nat -> R).
(** counts.sum(axis=-1), counts.sum(axis=0), counts.sum() *)
Definition row a : R := sumf (fun b => c a b) Y.
Definition col b : R := sumf (fun a => c a b) X.
Definition tot : R := sumf row X.
(** nmi.py:35-39 *)
Definition p_X a : R := row a / tot.
Definition p_Y b : R := col b / tot.
Definition p_X_Y a b : R := c a b / tot.
Definition p_Y_given_X a b : R := c a b / row a.
Definition p_X_given_Y a b : R := c a b / col b.
(** nmi.py:41-44 *)
Definition H_X : R := - sumf (fun a => p_X a * log2 (p_X a + eps)) X.
Definition H_Y : R := - sumf (fun b => p_Y b * log2 (p_Y b + eps)) Y.
Definition H_Y_given_X : R :=
  - sumf (fun a => sumf (fun b => p_X_Y a b * log2 (p_Y_given_X a b)) Y) X.
Definition H_X_given_Y : R :=
  - sumf (fun a => sumf (fun b => p_X_Y a b * log2 (p_X_given_Y a b)) Y) X.
(** nmi.py:48-51: the printed percentage (before formatting) *)
Definition nmi (old : bool) : R :=
  if old then 100 * (H_Y - H_Y_given_X) / H_Y
  else 200 * (H_Y - H_Y_given_X) / (H_Y + H_X).
End NMI.

(** entropy_rate.py:12-16, 26-36: token counts after collapsing repetitions *)
Definition token_counts (trans : list (nat * list nat)) : list (nat * nat) :=
  fold_left (fun d ut =>
    fold_left (fun d tok => dset d tok (dget0 0%nat d tok + 1)%nat)
              (groupby Nat.eq_dec (snd ut)) d) trans [].
Definition entropy_rate (counts : list (nat * nat)) : R :=
  let n := sumf (fun kc => INR (snd kc)) counts in
  - sumf (fun kc => INR (snd kc) / n * log2 (INR (snd kc) / n)) counts.
Definition perplexity (counts : list (nat * nat)) : R :=
  Rpower 2 (entropy_rate counts).

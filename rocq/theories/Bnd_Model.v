(** Model of recipes/aud/utils/score_boundaries.py and score_boundaries2.py.
    Integers are exact (numpy int64 overflow is not modelled). *)
From Coq Require Import List Arith ZArith Bool Lia Reals.
From Verif Require Import Prelude Edit_Model.
Import ListNotations.
Local Open Scope Z_scope.

Section Tokens.
Context {A : Type} (eq_dec : forall x y : A, {x = y} + {x <> y}).

(** score_boundaries.py:24-27, the loop; [frame] is the enumerate counter *)
Fixpoint bnd_loop (cur : A) (frame : Z) (l : list A) : list Z :=
  match l with
  | [] => []
  | u :: t => if eq_dec u cur then bnd_loop cur (frame + 1) t
              else frame :: bnd_loop u (frame + 1) t
  end.

(** score_boundaries.py:20-28 (= score_boundaries2.py:18-26); utt[0] raises
    IndexError on the empty utterance *)
Definition boundaries (utt : list A) : result (list Z) :=
  match utt with
  | [] => Err IndexError
  | u :: t => Ok (bnd_loop u 2 t)
  end.
End Tokens.

(** numpy min and argmin of a 1-d array (argmin: the first minimum); ValueError
    on empty arrays *)
Fixpoint argmin_from (i : nat) (best : Z) (bi : nat) (l : list Z) : Z * nat :=
  match l with
  | [] => (best, bi)
  | x :: t => if x <? best then argmin_from (S i) x i t
              else argmin_from (S i) best bi t
  end.
Definition argmin (l : list Z) : result (Z * nat) :=
  match l with
  | [] => Err ValueError
  | x :: t => Ok (argmin_from 1 x 0 t)
  end.

(** l[i] = v on arrays *)
Fixpoint lset {B} (l : list B) (i : nat) (v : B) : list B :=
  match l, i with
  | [], _ => []
  | _ :: t, O => v :: t
  | x :: t, S i => x :: lset t i v
  end.

(** the value written over consumed reference boundaries, lines 40 / 35 *)
Definition sentinel : Z := 1000000.

(** score_boundaries.py:35-40 *)
Definition hit_step (delta : Z) (st : nat * list Z) (b : Z) : result (nat * list Z) :=
  let '(hits, ref) := st in
  bindr (argmin (map (fun r => Z.abs (b - r)) ref)) (fun mi =>
  if fst mi <=? delta
  then Ok (S hits, lset ref (snd mi) sentinel)
  else Ok (hits, ref)).

(** score_boundaries.py:31-41 (ref_bounds_ is deep-copied: not modified) *)
Definition get_hits (ref hyp : list Z) (delta : Z) : result nat :=
  bindr (foldM (hit_step delta) hyp (0%nat, ref)) (fun st => Ok (fst st)).

(** score_boundaries2.py:31-35: the loop iterates over the array it modifies,
    so iteration k reads the current value of cell k; the index written is an
    index in the hypothesis array *)
Definition hit_step2 (hyp : list Z) (delta : Z) (st : nat * list Z) (k : nat)
    : result (nat * list Z) :=
  let '(hits, ref) := st in
  bindr (lget ref k) (fun b =>
  bindr (argmin (map (fun h => Z.abs (b - h)) hyp)) (fun mi =>
  if fst mi <=? delta
  then if (snd mi <? length ref)%nat
       then Ok (S hits, lset ref (snd mi) sentinel)
       else Err IndexError
  else Ok (hits, ref))).

(** score_boundaries2.py:29-36 *)
Definition get_hits2 (ref hyp : list Z) (delta : Z) : result nat :=
  bindr (foldM (hit_step2 hyp delta) (seq 0 (length ref)) (0%nat, ref))
        (fun st => Ok (fst st)).

Section Main.
Context {A : Type} (eq_dec : forall x y : A, {x = y} + {x <> y}).

(** score_boundaries.py:93-98 for one utterance, [gh] is get_hits.  Utterance
    ids are natural numbers; hyp[utt] raises KeyError. *)
Definition score_utt (gh : list Z -> list Z -> Z -> result nat) (delta : Z)
    (hyp : list (nat * list A)) (acc : nat * nat * nat) (u : nat * list A)
    : result (nat * nat * nat) :=
  let '(hits, nref, nhyp) := acc in
  bindr (boundaries eq_dec (snd u)) (fun rb =>
  match dget Nat.eq_dec hyp (fst u) with
  | None => Err KeyError
  | Some h =>
    bindr (boundaries eq_dec h) (fun hb =>
    bindr (gh rb hb delta) (fun n =>
    Ok (hits + n, nref + length rb, nhyp + length hb)%nat))
  end).

Definition counts gh delta (ref hyp : list (nat * list A)) : result (nat * nat * nat) :=
  foldM (score_utt gh delta hyp) ref (0, 0, 0)%nat.

Local Open Scope R_scope.
(** score_boundaries.py:103-114 *)
Definition rates (acc : nat * nat * nat) : R * R * R :=
  let '(hits, nref, nhyp) := acc in
  let recall := if (0 <? nref)%nat then INR hits / INR nref else 0 in
  let prec := if (0 <? nhyp)%nat then INR hits / INR nhyp else 0 in
  let fscore := if Rlt_dec 0 (recall + prec)
                then 2 * (prec * recall) / (prec + recall) else 0 in
  (recall, prec, fscore).

Definition score_bnd (delta : Z) (ref hyp : list (nat * list A)) : result (R * R * R) :=
  bindr (counts get_hits delta ref hyp) (fun acc => Ok (rates acc)).

(** score_boundaries2.py:88-98: no zero guard *)
Definition rates2 (acc : nat * nat * nat) : result (R * R * R) :=
  let '(hits, nref, nhyp) := acc in
  if (nref =? 0)%nat then Err ZeroDivisionError
  else if (nhyp =? 0)%nat then Err ZeroDivisionError
  else
    let recall := INR hits / INR nref in
    let prec := INR hits / INR nhyp in
    if Req_EM_T (prec + recall) 0 then Err ZeroDivisionError
    else Ok (recall, prec, 2 * (prec * recall) / (prec + recall)).

Definition score_bnd2 (delta : Z) (ref hyp : list (nat * list A)) : result (R * R * R) :=
  bindr (counts get_hits2 delta ref hyp) rates2.
End Main.

(** ** map_trans of score_boundaries.py with its out-of-vocabulary symbols.
    Target symbols: [Sym n] an ordinary symbol, [Oov i] the string '<oov_i>'
    (assumed different from every ordinary symbol of the mapping file; source
    tokens are natural numbers). *)
Inductive sym : Type := Sym (n : nat) | Oov (i : nat).

(** score_boundaries.py:61-66, one token: state = (mapfile, oov_i) *)
Definition map_token (st : list (nat * sym) * nat) (token : nat)
    : (list (nat * sym) * nat) * sym :=
  let '(m, i) := st in
  match dget Nat.eq_dec m token with
  | Some s => ((m, i), s)
  | None => (((token, Oov i) :: m, S i), Oov i)
  end.

Fixpoint map_utt (st : list (nat * sym) * nat) (l : list nat)
    : (list (nat * sym) * nat) * list sym :=
  match l with
  | [] => (st, [])
  | x :: t => let (st1, y) := map_token st x in
              let (st2, ys) := map_utt st1 t in (st2, y :: ys)
  end.

Fixpoint map_utts (st : list (nat * sym) * nat) (l : list (nat * list nat))
    : (list (nat * sym) * nat) * list (nat * list sym) :=
  match l with
  | [] => (st, [])
  | (u, x) :: t => let (st1, y) := map_utt st x in
              let (st2, ys) := map_utts st1 t in (st2, (u, y) :: ys)
  end.

(** score_boundaries.py:56-68: the dictionary argument is modified in place (it
    is returned here), the counter always restarts at 1 *)
Definition map_trans (mapfile : list (nat * sym)) (trans : list (nat * list nat))
    : list (nat * sym) * list (nat * list sym) :=
  let (st, out) := map_utts (mapfile, 1%nat) trans in (fst st, out).

(** score_boundaries.py:85-88: hyp first, then ref, with the same dictionary *)
Definition map_both (mapfile : list (nat * sym)) (ref hyp : list (nat * list nat))
    : list (nat * list sym) * list (nat * list sym) :=
  let (m1, hyp') := map_trans mapfile hyp in
  let (m2, ref') := map_trans m1 ref in (ref', hyp').

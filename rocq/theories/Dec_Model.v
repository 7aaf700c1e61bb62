(** Models of the functions turning state paths / state posteriors into phones:
    beer/cli/subcommands/hmm/decode.py, posteriors.py,
    recipes/timit_v2/utils/convert_states_to_phone.py and pdf2unit.py.
    States (pdf ids) and phones are natural numbers (names); dictionaries are
    association lists in insertion order. *)
From Coq Require Import List Arith Bool Lia Reals.
From Verif Require Import Prelude Edit_Model.
Import ListNotations.

(** d[k], KeyError *)
Definition dgetE (d : list (nat * nat)) (k : nat) : result nat :=
  match dget Nat.eq_dec d k with Some v => Ok v | None => Err KeyError end.

(** d[k] = v keeping the insertion position of an existing key *)
Fixpoint dset {V} (d : list (nat * V)) (k : nat) (v : V) : list (nat * V) :=
  match d with
  | [] => [(k, v)]
  | (k', v') :: t => if Nat.eq_dec k k' then (k, v) :: t else (k', v') :: dset t k v
  end.

Definition inb (x : nat) (l : list nat) : bool := existsb (Nat.eqb x) l.

(** decode.py:29  {value: key for key, value in start_pdf.items()} *)
Definition invert (d : list (nat * nat)) : list (nat * nat) :=
  fold_left (fun acc kv => dset acc (snd kv) (fst kv)) d [].

(** decode.py:33-39: loop over path[1:] *)
Fixpoint s2p_loop (start_list : list nat) (state2sym : list (nat * nat))
    (per_frame : bool) (prev last : nat) (path : list nat) : result (list nat) :=
  match path with
  | [] => Ok []
  | s :: t =>
    if negb (s =? prev) && inb s start_list then
      bindr (dgetE state2sym s) (fun sym =>
      bindr (s2p_loop start_list state2sym per_frame s sym t) (fun r => Ok (sym :: r)))
    else
      bindr (s2p_loop start_list state2sym per_frame s last t) (fun r =>
        Ok (if per_frame then last :: r else r))
  end.

(** decode.py:27-40; start_pdf: phone -> pdf id of its first emitting state *)
Definition state2phone (path : list nat) (start_pdf : list (nat * nat))
    (per_frame : bool) : result (list nat) :=
  let start_list := map snd start_pdf in
  let state2sym := invert start_pdf in
  match path with
  | [] => Err IndexError
  | s :: t =>
    bindr (dgetE state2sym s) (fun sym =>
    bindr (s2p_loop start_list state2sym per_frame s sym t) (fun r => Ok (sym :: r)))
  end.

(** convert_states_to_phone.py:30-34 *)
Fixpoint c2p_loop (ends : list nat) (phone : list (nat * nat)) (s : nat) (path : list nat)
    : result (list nat) :=
  match path with
  | [] => bindr (dgetE phone s) (fun p => Ok [p])
  | s' :: t =>
    if negb (s =? s') && inb s ends
    then bindr (dgetE phone s) (fun p =>
         bindr (c2p_loop ends phone s' t) (fun r => Ok (p :: r)))
    else c2p_loop ends phone s' t
  end.
Definition convert_states (path ends : list nat) (phone : list (nat * nat)) : result (list nat) :=
  match path with
  | [] => Err IndexError     (* state_ids[-1] *)
  | s :: t => c2p_loop ends phone s t
  end.

(** convert_states_to_phone.py:55-62: the tables built by main from the phone
    ids [ids] (phone id i is its own name) and n = n_state_per_unit.
    i % n raises ZeroDivisionError only if the dictionary is not empty, which
    n = 0 makes it; so n = 0 gives empty tables. *)
Definition c2p_phone_table (ids : list nat) (n : nat) : list (nat * nat) :=
  fold_left (fun acc i => fold_left (fun acc j => dset acc (i * n + j) i) (seq 0 n) acc)
    ids [].
Definition c2p_ends (ids : list nat) (n : nat) : list nat :=
  map (fun i => i + n - 1)
    (filter (fun i => i mod n =? 0) (map fst (c2p_phone_table ids n))).

(** pdf2unit.py:8-19.  Lines are (pdf, unit) pairs; prev_unit = '' initially is
    modelled by None (a unit name is never empty). *)
Fixpoint read_mapping_loop (lines : list (nat * nat)) (mapping : list (nat * nat))
    (starts : list nat) (prev : option nat) : list (nat * nat) * list nat :=
  match lines with
  | [] => (mapping, starts)
  | (pdf, unit) :: t =>
    let same := match prev with Some u => u =? unit | None => false end in
    read_mapping_loop t (dset mapping pdf unit)
      (if same then starts else starts ++ [pdf])
      (if same then prev else Some unit)
  end.
Definition read_mapping (lines : list (nat * nat)) : list (nat * nat) * list nat :=
  read_mapping_loop lines [] [] None.

(** pdf2unit.py:32-34 *)
Fixpoint p2u_loop (starts : list nat) (mapping : list (nat * nat)) (prev : nat)
    (path : list nat) : result (list nat) :=
  match path with
  | [] => Ok []
  | s :: t =>
    if negb (s =? prev) && inb s starts
    then bindr (dgetE mapping s) (fun u =>
         bindr (p2u_loop starts mapping s t) (fun r => Ok (u :: r)))
    else p2u_loop starts mapping s t
  end.
(** pdf2unit.py:21-35 *)
Definition pdf2unit (path starts : list nat) (mapping : list (nat * nat)) : result (list nat) :=
  match path with
  | [] => Err IndexError
  | s :: t => bindr (dgetE mapping s) (fun u =>
              bindr (p2u_loop starts mapping s t) (fun r => Ok (u :: r)))
  end.

(** posteriors.py:30-35.  One frame of posteriors is a list of reals; the slice
    posts[start:end] with 0 <= start, end. end_pdf[unit] KeyError. *)
Definition slice {A} (l : list A) (a b : nat) : list A := firstn (b - a) (skipn a l).
Definition post2phone (post : list R) (start_pdf end_pdf : list (nat * nat))
    : result (list R) :=
  mapM (fun us => bindr (dgetE end_pdf (fst us)) (fun e =>
          Ok (rsum (slice post (snd us) e)))) start_pdf.

(** decode.py:65-88: which utterances are processed.  [have] = ids in the
    dataset.  The handler of the KeyError formats the variable utt, which is
    unbound (NameError/UnboundLocalError) until one utterance was found.
    The model is the list of ids processed. *)
Fixpoint decode_loop (have : list nat) (bound : bool) (utts : list nat) : result (list nat) :=
  match utts with
  | [] => Ok []
  | u :: t =>
    if inb u have
    then bindr (decode_loop have true t) (fun r => Ok (u :: r))
    else if bound then decode_loop have bound t else Err NameError
  end.
(** posteriors.py:57-72: same loop, the handler formats uttname *)
Fixpoint posteriors_loop (have : list nat) (utts : list nat) : result (list nat) :=
  match utts with
  | [] => Ok []
  | u :: t =>
    if inb u have
    then bindr (posteriors_loop have t) (fun r => Ok (u :: r))
    else posteriors_loop have t
  end.

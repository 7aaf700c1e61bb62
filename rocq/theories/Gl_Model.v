(** Model of /repo/recipes/aud/local/google_lr/prepare_transcripts.py: letters of
    a text used as phones.

    - A character is its code point; a line is the list of its tokens,
      line.strip().split().  [isalnum], [combining] and [lower] are those of
      Python for one character ([lower] may give several characters).
    - The dictionary N of counts is never used and is left out, as are the
      directories and the command line.
    - The list t of the script holds the strings 'sil' and, for each word, its
      units joined by spaces; here each word is the list of its units.  As 'sil'
      has no space, a joined word equals 'sil' when its only unit is 'sil'. *)
From Coq Require Import String List Arith Bool DecimalString DecimalNat.
From Verif Require Import Prelude.
Import ListNotations.

Notation word := (list nat) (only parsing).
Definition weqb (a b : list nat) : bool := if list_eq_dec Nat.eq_dec a b then true else false.

(** d[k] = v and d[k] *)
Fixpoint kset {A : Type} (k : word) (v : A) (d : list (word * A)) : list (word * A) :=
  match d with
  | [] => [(k, v)]
  | (k', v') :: t => if weqb k k' then (k', v) :: t else (k', v') :: kset k v t
  end.
Fixpoint kget {A : Type} (k : word) (d : list (word * A)) : result A :=
  match d with
  | [] => Err KeyError
  | (k', v) :: t => if weqb k k' then Ok v else kget k t
  end.
Definition khas {A : Type} (k : word) (d : list (word * A)) : bool :=
  match kget k d with Ok _ => true | Err _ => false end.

(** sorted(phone) *)
Fixpoint insert_char (c : nat) (w : word) : word :=
  match w with
  | [] => [c]
  | a :: t => if c <=? a then c :: w else a :: insert_char c t
  end.
Fixpoint sort_chars (w : word) : word :=
  match w with [] => [] | c :: t => insert_char c (sort_chars t) end.

(** '[', 'g', 'b' and 'sil' *)
Definition ch_bracket : nat := 91.
Definition ch_g : nat := 103.
Definition ch_b : nat := 98.
Definition w_sil : word := [115; 105; 108].

(** prepare_transcripts.py:80, f'{args.lang}_{n}' *)
Definition unit_name (lang : string) (n : nat) : string :=
  (lang ++ "_" ++ NilEmpty.string_of_uint (Nat.to_uint n))%string.

Section Script.
  Variables (isalnum combining : nat -> bool) (lower : nat -> word).

  (** prepare_transcripts.py:7-15 *)
  Definition clean (diacritics : bool) (x : word) : word :=
    if negb diacritics then flat_map lower (filter isalnum x)
    else flat_map lower (filter (fun a => isalnum a || combining a) x).

  (** prepare_transcripts.py:55-72; phones[-1] += letter *)
  Definition add_last (phones : list word) (c : nat) : list word :=
    removelast phones ++ [last phones [] ++ [c]].
  Definition letter_step (phones : list word) (c : nat) : list word :=
    if combining c then add_last phones c
    else if (c =? ch_b) && weqb (last phones []) [ch_g] then add_last phones c
    else phones ++ [[c]].

  (** prepare_transcripts.py:54-72, for a word that is not empty *)
  Definition split_word (w : word) : list word :=
    match w with
    | [] => []
    | c :: t => fold_left letter_step t [[c]]
    end.

  (** prepare_transcripts.py:73-80 *)
  Definition add_phone (lang : string) (d : list (word * string)) (phone : word) : list (word * string) :=
    let phone := sort_chars phone in
    if khas phone d then d else kset phone (unit_name lang (length d + 1)) d.

  (** prepare_transcripts.py:46-82 *)
  Definition do_word (lang : string) (diacritics : bool) (st : list (word * string) * list (list string)) (w : word)
    : result (list (word * string) * list (list string)) :=
    let '(d, t) := st in
    if match w with c :: _ => c =? ch_bracket | [] => false end then
      match t with
      | [] => Ok (d, t)
      | _ => if list_eq_dec string_dec (last t []) ["sil"%string] then Ok (d, t) else Ok (d, t ++ [["sil"%string]])
      end
    else
      match split_word (clean diacritics w) with
      | [] => Ok (d, t)
      | phones =>
        let d' := fold_left (add_phone lang) phones d in
        bindr (mapM (fun p => kget (sort_chars p) d') phones) (fun ids => Ok (d', t ++ [ids]))
      end.

  (** prepare_transcripts.py:44-85: one utterance *)
  Definition do_utt (lang : string) (diacritics add_sil : bool)
      (st : list (word * string) * list (word * list string)) (us : word * list word)
    : result (list (word * string) * list (word * list string)) :=
    let '(d, out) := st in
    bindr (foldM (do_word lang diacritics) (snd us) (d, [])) (fun dt =>
    let t := concat (snd dt) in
    let t := if add_sil then ["sil"%string] ++ t ++ ["sil"%string] else t in
    Ok (fst dt, out ++ [(fst us, t)])).

  (** prepare_transcripts.py:38-40 *)
  Definition trans_dict (lines : list (list word)) : result (list (word * list word)) :=
    foldM (fun d toks => match toks with
                         | [] => Err IndexError
                         | utt :: sent => Ok (kset utt sent d)
                         end) lines [].

  (** prepare_transcripts.py:38-89: the table written to phones.txt and the
      lines of trans *)
  Definition google_main (lang : string) (diacritics add_sil : bool) (lines : list (list word))
    : result (list (word * string) * list (word * list string)) :=
    bindr (trans_dict lines) (fun td =>
    foldM (do_utt lang diacritics add_sil) td ([(w_sil, "sil"%string)], [])).
End Script.

(** Models of the scripts of the recipes that rewrite transcriptions:
    /repo/recipes/aud/utils/{maptrans,add_prefix,prepare_phone_trans}.py,
    /repo/recipes/aud/local/timit/timit-norm-trans.py (the same file is in
    /repo/recipes/timit_v2/local),
    /repo/recipes/aud/local/alffa/prepare_transcripts.py,
    /repo/recipes/timit_v2/utils/{convert-ali-to-best-path,prepare-spk-labels}.py.

    - A line is the list of its tokens, line.strip().split(); printed lines are
      given as their tokens.
    - Files, warnings and command lines are left out. *)
From Coq Require Import String List Arith Bool.
From Verif Require Import Prelude Gb_Model Edit_Model.
Import ListNotations.
Local Open Scope string_scope.

Notation dict A := (list (string * A)).
Definition mem_str (s : string) (l : list string) : bool := existsb (String.eqb s) l.

(** ** maptrans.py *)

(** maptrans.py:9-15 *)
Definition load_transcript (lines : list (list string)) : result (dict (list string)) :=
  foldM (fun d toks => match toks with
                       | [] => Err IndexError
                       | utt :: t => Ok (sset utt t d)
                       end) lines [].

(** maptrans.py:18-27: lines without exactly two tokens are ignored *)
Definition load_mapping (lines : list (list string)) : dict string :=
  fold_left (fun d toks => match toks with
                           | [p1; p2] => sset p1 p2 d
                           | _ => d
                           end) lines [].

(** maptrans.py:33-42 *)
Definition map_token (mapping : dict string) (unk token : string) : result string :=
  match sget token mapping with
  | Ok v => Ok v
  | Err e => if String.eqb unk "" then Err e else Ok unk
  end.

(** maptrans.py:30-44 *)
Definition map_trans (mapping : dict string) (unk : string) (trans : dict (list string))
  : result (dict (list string)) :=
  mapM (fun ut => bindr (mapM (map_token mapping unk) (snd ut)) (fun t => Ok (fst ut, t))) trans.

(** maptrans.py:47-59 *)
Definition maptrans_main (mapfile transfile : list (list string)) (unk : string) : result (dict (list string)) :=
  bindr (load_transcript transfile) (map_trans (load_mapping mapfile) unk).

(** ** timit-norm-trans.py *)

Record phonemap : Type := { m60 : dict string; m48 : dict string; removed : list string }.

(** timit-norm-trans.py:25-42: one line; the first assignment is done before the
    exception raised by the second *)
Definition norm_load_line (pm : phonemap) (phones : list string) : result phonemap :=
  match phones with
  | [] => Err IndexError
  | [a] => Ok {| m60 := m60 pm; m48 := m48 pm; removed := removed pm ++ [a] |}
  | [a; b] => Ok {| m60 := sset a b (m60 pm); m48 := m48 pm; removed := removed pm ++ [a] |}
  | a :: b :: c :: _ => Ok {| m60 := sset a b (m60 pm); m48 := sset b c (m48 pm); removed := removed pm |}
  end.
Definition norm_load (lines : list (list string)) : result phonemap :=
  foldM norm_load_line lines {| m60 := []; m48 := []; removed := [] |}.

(** timit-norm-trans.py:45-62 *)
Definition norm_line (mapping : dict string) (to_remove : list string) (toks : list string)
  : result (string * list string) :=
  match toks with
  | [] => Err IndexError
  | utt :: t =>
    bindr (mapM (fun x => sget x mapping) (filter (fun p => negb (mem_str p to_remove)) t)) (fun t' => Ok (utt, t'))
  end.
Definition norm_main (map_60_48 : bool) (phonemap_lines lines : list (list string))
  : result (list (string * list string)) :=
  bindr (norm_load phonemap_lines) (fun pm =>
  mapM (norm_line (if map_60_48 then m60 pm else m48 pm) (removed pm)) lines).

(** ** prepare_phone_trans.py *)

(** prepare_phone_trans.py:17-21 *)
Definition load_lexicon (lines : list (list string)) : result (dict (list string)) := load_transcript lines.

(** prepare_phone_trans.py:23-37; a line with a missing word is not printed *)
Definition phone_trans_line (lexicon : dict (list string)) (add_sil : bool) (toks : list string)
  : result (option (list string)) :=
  match toks with
  | [] => Err IndexError
  | utt :: words =>
    match mapM (fun w => sget w lexicon) words with
    | Err _ => Ok None
    | Ok ps => let p := concat ps in Ok (Some (if add_sil then utt :: "sil" :: p ++ ["sil"] else utt :: p))
    end
  end.
Definition phone_trans_main (lexfile text : list (list string)) (add_sil : bool) : result (list (list string)) :=
  bindr (load_lexicon lexfile) (fun lex =>
  bindr (mapM (phone_trans_line lex add_sil) text) (fun ls =>
  Ok (flat_map (fun l => match l with Some t => [t] | None => [] end) ls))).

(** ** add_prefix.py:18-30; [to_exclude]: the option split at the commas *)
Definition prefix_token (prefix : string) (to_exclude : list string) (token : string) : string :=
  if mem_str token to_exclude then token else prefix ++ token.
Definition add_prefix (prefix : string) (to_exclude : list string) (lines : list (list string))
  : result (list (list string)) :=
  mapM (fun toks => match toks with
                    | [] => Err IndexError
                    | utt :: t => Ok (utt :: map (prefix_token prefix to_exclude) t)
                    end) lines.

(** ** alffa/prepare_transcripts.py *)

(** prepare_transcripts.py:31-36; [name n]: '_'.join([lang, str(n)]) *)
Definition phone_ids (name : nat -> string) (lexicon : dict (list string)) : dict string :=
  fold_left (fun d phone => if mem_str phone (map fst d) then d else (d ++ [(phone, name (S (List.length d)))])%list)
            (concat (map snd lexicon)) [].

Fixpoint chars (s : string) : list string :=
  match s with
  | EmptyString => []
  | String c s' => String c EmptyString :: chars s'
  end.

(** prepare_transcripts.py:57-64: the phones of a word; those of an unknown word
    are the characters of the name [name 0] *)
Definition word_phones (name : nat -> string) (lexicon : dict (list string)) (keep_sil : bool)
    (nonsil : list string) (word : string) : list string :=
  match sget word lexicon with
  | Ok p => if keep_sil then p else filter (fun x => mem_str x nonsil) p
  | Err _ => chars (name 0)
  end.

(** prepare_transcripts.py:53-73: None when the utterance is not written *)
Definition alffa_line (name : nat -> string) (lexicon : dict (list string)) (keep_sil : bool)
    (nonsil : list string) (ids : dict string) (ut : string * list string) : option (list string) :=
  match mapM (fun w => mapM (fun p => sget p ids) (word_phones name lexicon keep_sil nonsil w)) (snd ut) with
  | Ok ps => Some (fst ut :: "sil" :: concat ps ++ ["sil"])%list
  | Err _ => None
  end.
(** prepare_transcripts.py:24-73, without phones.txt nor nonsilence_phones.txt *)
Definition alffa_main (name : nat -> string) (keep_sil : bool) (lexfile text : list (list string))
  : result (list (list string)) :=
  bindr (load_lexicon lexfile) (fun lex =>
  bindr (load_transcript text) (fun trans =>
  let ids := phone_ids name lex in
  Ok (flat_map (fun ut => match alffa_line name lex keep_sil (map fst ids) ids ut with Some t => [t] | None => [] end) trans))).

(** ** convert-ali-to-best-path.py:45-48 *)
Fixpoint dedup_adjacent (l : list nat) : list nat :=
  match l with
  | [] => []
  | x :: t => match t with
              | [] => [x]
              | y :: _ => if Nat.eqb x y then dedup_adjacent t else x :: dedup_adjacent t
              end
  end.
Definition best_path (pdf_mapping : list (nat * string)) (units_id : dict nat) (ali : list nat) : result (list nat) :=
  bindr (mapM (fun s => bindr (nget s pdf_mapping) (fun u => sget u units_id)) ali) (fun p => Ok (dedup_adjacent p)).

(** ** prepare-spk-labels.py:45-58; [speakers]: the set in the order of list() *)
Fixpoint index_str (s : string) (l : list string) : result nat :=
  match l with
  | [] => Err ValueError
  | x :: t => if String.eqb s x then Ok 0 else bindr (index_str s t) (fun n => Ok (S n))
  end.
Definition spk_labels (speakers : list string) (utt2spk : list (list string)) : result (dict nat) :=
  foldM (fun d toks => match toks with
                       | [utt; spk] => bindr (index_str spk speakers) (fun i => Ok (sset utt i d))
                       | _ => Err ValueError
                       end) utt2spk [].
Definition spk_table (speakers : list string) : list (string * nat) :=
  combine speakers (seq 0 (List.length speakers)).

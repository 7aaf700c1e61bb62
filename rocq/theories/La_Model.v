(** Models of the scripts that write the lists of units:
    /repo/recipes/aud/utils/prepare_lang_aud.py and
    /repo/recipes/aud/local/timit/timit_lang_prep.py with its variant
    /repo/recipes/timit_v2/local/timit_lang_prep.py.

    A line is the list of its tokens, line.strip().split(); printed lines are
    given as their tokens.  Command lines and directories are left out. *)
From Coq Require Import String Ascii List Arith Bool.
From Verif Require Import Prelude Gb_Model Fe_Model Ar_Model.
Import ListNotations.
Local Open Scope string_scope.

(** ** prepare_lang_aud.py:15-19; 'au' + str(i) *)
Definition au (i : nat) : string := "au" ++ string_of_list_ascii (dec i).
Definition lang_aud (non_speech : bool) (nunits : nat) : list (list string) :=
  ((if non_speech then [["sil"; "non-speech-unit"]] else []) ++
   map (fun i => [au i; "speech-unit"]) (seq 1 nunits))%list.

(** ** timit_lang_prep.py *)

(** sorted(strings) *)
Definition sort_str (l : list string) : list string :=
  map string_of_list_ascii (sorted (map list_ascii_of_string l)).
Definition set_of (l : list string) : list string := nodup string_dec l.

(** timit_lang_prep.py:18-27: the two dictionaries have the same keys *)
Definition prep_line (d : list (string * string)) (toks : list string) : result (list (string * string)) :=
  match toks with
  | [] => Err IndexError
  | a :: rest =>
    if String.eqb a "q" then Ok d
    else match rest with
         | [] => Err IndexError
         | b :: rest' =>
           if String.eqb b "sil" then Ok d
           else match rest' with
                | [] => Err IndexError
                | c :: _ => Ok (sset b c d)
                end
         end
  end.

(** The three files: units, phones_48_to_39.txt and phones_39.txt; the script of
    timit_v2 writes phones.txt in the place of units (timit_v2 lines 34-37). *)
Record prep : Type := { p_units : list (list string); p_ids : list (string * nat); p_map : list (list string); p_39 : list (string * nat) }.

(** timit_lang_prep.py:28-44: list.remove raises ValueError *)
Definition lang_prep (lines : list (list string)) : result prep :=
  bindr (foldM prep_line lines []) (fun d =>
  let targets := sort_str (set_of (map snd d)) in
  if existsb (String.eqb "sil") targets
  then let phone_39 := "sil" :: remove string_dec "sil" targets in
       let keys := sort_str (map fst d) in
       bindr (mapM (fun k => bindr (sget k d) (fun v => Ok [k; v])) keys) (fun m =>
       Ok {| p_units := ["sil"; "non-speech-unit"] ::
                        map (fun k => [k; if String.eqb k "epi" then "non-speech-unit" else "speech-unit"]) keys;
             p_ids := combine ("sil" :: keys) (seq 0 (S (List.length keys)));
             p_map := ["sil"; "sil"] :: m;
             p_39 := combine phone_39 (seq 0 (List.length phone_39)) |})
  else Err ValueError).

(** Model of /repo/recipes/timit_v2/utils/nnet-create.py:17-40: the values given
    with --set and their replacement in the configuration file with str.format.

    - A text is the list of its characters; white space is that of ASCII.
    - The YAML parser that reads the formatted text is left out; the creation of
      the network from the configuration is Nc_Model.
    - In a replacement field only the plain name is modelled: attributes,
      indices, conversions and format specifications of a known name, and nested
      fields, are [Err OtherError].  A field without name or with a number refers
      to a positional argument, and there is none (IndexError). *)
From Coq Require Import String Ascii List Arith Bool.
From Verif Require Import Prelude Nn_Model.
Import ListNotations.
Local Open Scope char_scope.

(** str.strip() *)
Fixpoint lstrip (s : str) : str :=
  match s with [] => [] | c :: s' => if is_space c then lstrip s' else s end.
Definition strip (s : str) : str := rev (lstrip (rev (lstrip s))).

(** nnet-create.py:29-33: one item; what cannot be unpacked is ignored *)
Definition set_item (d : list (str * str)) (key_val : str) : list (str * str) :=
  match split_on "=" key_val with
  | [key; val] => dict_set (strip key) (strip val) d
  | _ => d
  end.
(** nnet-create.py:27-33 *)
Definition set_values (arg : str) : list (str * str) :=
  fold_left set_item (split_on "," (strip arg)) [].

Fixpoint value_of (k : str) (d : list (str * str)) : result str :=
  match d with
  | [] => Err KeyError
  | (k', v) :: d' => if str_eqb k k' then Ok v else value_of k d'
  end.

Definition is_digit (c : ascii) : bool := (48 <=? nat_of_ascii c)%nat && (nat_of_ascii c <=? 57)%nat.
(** The characters ending the name of an argument in a field *)
Definition ends_name (c : ascii) : bool :=
  Ascii.eqb c "." || Ascii.eqb c "[" || Ascii.eqb c "!" || Ascii.eqb c ":".
Fixpoint arg_name (s : str) : str :=
  match s with [] => [] | c :: s' => if ends_name c then [] else c :: arg_name s' end.

(** One replacement field, the text between the braces *)
Definition field (values : list (str * str)) (f : str) : result str :=
  let name := arg_name f in
  if forallb is_digit name then Err IndexError
  else bindr (value_of name values) (fun v => if existsb ends_name f then Err OtherError else Ok v).

(** nnet-create.py:37, the method format of str with the values as keywords.
    [open] is the beginning of the field being read, reversed. *)
Fixpoint format (values : list (str * str)) (open : option str) (s : str) : result str :=
  match open, s with
  | None, [] => Ok []
  | Some _, [] => Err ValueError
  | None, c :: s1 =>
    if Ascii.eqb c "{" then
      match s1 with
      | [] => Err ValueError
      | c' :: s2 => if Ascii.eqb c' "{" then bindr (format values None s2) (fun r => Ok ("{" :: r))
                    else format values (Some []) s1
      end
    else if Ascii.eqb c "}" then
      match s1 with
      | [] => Err ValueError
      | c' :: s2 => if Ascii.eqb c' "}" then bindr (format values None s2) (fun r => Ok ("}" :: r))
                    else Err ValueError
      end
    else bindr (format values None s1) (fun r => Ok (c :: r))
  | Some f, c :: s1 =>
    if Ascii.eqb c "}" then
      bindr (field values (rev f)) (fun v => bindr (format values None s1) (fun r => Ok (v ++ r)))
    else if Ascii.eqb c "{" then Err OtherError
    else format values (Some (c :: f)) s1
  end.

(** nnet-create.py:26-37: the text given to the YAML parser *)
Definition nnet_conf (arg conf : str) : result str := format (set_values arg) None conf.

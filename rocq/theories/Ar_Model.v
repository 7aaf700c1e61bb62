(** Models of two small commands: /repo/beer/cli/subcommands/features/archive.py
    (archive of the features files of a directory) and
    /repo/beer/cli/subcommands/hmm/phonelist.py (list of the phones, in natural
    order).

    Strings are lists of ASCII characters.  A directory is the list of its
    files (name and content) in the order glob lists them. *)
From Coq Require Import String List Arith Bool Ascii.
From Verif Require Import Prelude Nn_Model Fe_Model.
Import ListNotations.
Local Open Scope nat_scope.

(** ** archive.py *)
Fixpoint starts_with (p s : str) : bool :=
  match p, s with
  | [], _ => true
  | a :: p', b :: s' => Ascii.eqb a b && starts_with p' s'
  | _, [] => false
  end.
Definition ends_with (e s : str) : bool := starts_with (rev e) (rev s).

(** glob.glob(dir + '/*' + ext), archive.py:21, for an extension without
    pattern characters: names ending with ext, without the hidden files *)
Definition globbed (ext name : str) : bool :=
  match name with
  | c :: _ => negb (Ascii.eqb c ".") && ends_with ext name
  | [] => false
  end.

(** s.replace(pat, '') for a non-empty pattern: the occurrences from the left *)
Fixpoint remove_all (fuel : nat) (pat s : str) : str :=
  match fuel, s with
  | S f, c :: s' => if starts_with pat s then remove_all f pat (skipn (length pat) s) else c :: remove_all f pat s'
  | _, _ => []
  end.

(** archive.py:23 *)
Definition arcname (ext name : str) : str := remove_all (length name) ("."%char :: ext) name.

(** archive.py:20-25: the entries of the archive, in the order of writing *)
Definition archive {A} (ext : str) (dir : list (str * A)) : list (str * A) :=
  map (fun f => (arcname ext (fst f), snd f)) (filter (fun f => globbed ext (fst f)) dir).

(** numpy.load on the archive: the keys are the names of the entries, without
    the suffix .npy; an entry is looked for under the key, then under the key
    with the suffix.  For two entries of the same name zipfile returns the
    last one. *)
Definition npy : str := list_ascii_of_string ".npy"%string.
Definition npz_key (name : str) : str :=
  if ends_with npy name then firstn (length name - 4) name else name.
Definition npz_keys {A} (z : list (str * A)) : list str := map (fun e => npz_key (fst e)) z.
Definition zip_read {A} (z : list (str * A)) (name : str) : option A :=
  fold_left (fun r e => if str_eqb name (fst e) then Some (snd e) else r) z None.
Definition npz_get {A} (z : list (str * A)) (key : str) : result A :=
  match zip_read z key with
  | Some a => Ok a
  | None => match zip_read z (key ++ npy) with Some a => Ok a | None => Err KeyError end
  end.

(** ** phonelist.py *)
Definition is_digit (c : ascii) : bool :=
  let n := nat_of_ascii c in (48 <=? n) && (n <=? 57).

(** x.lower() *)
Definition lower_char (c : ascii) : ascii :=
  let n := nat_of_ascii c in if (65 <=? n) && (n <=? 90) then ascii_of_nat (n + 32) else c.
Definition lower (s : str) : str := map lower_char s.

(** Key of natsort (algorithm INT, its default): the runs of digits are
    integers, and the key always starts with a text. *)
Inductive tok : Type := T (s : str) | N (n : nat).

Fixpoint runs (s : str) : list (bool * str) :=
  match s with
  | [] => []
  | c :: s' => match runs s' with
               | (b, r) :: rest => if Bool.eqb b (is_digit c) then (b, c :: r) :: rest
                                   else (is_digit c, [c]) :: (b, r) :: rest
               | [] => [(is_digit c, [c])]
               end
  end.
Definition dec_value (s : str) : nat := fold_left (fun v c => 10 * v + (nat_of_ascii c - 48)) s 0.
Definition nat_key (s : str) : list tok :=
  let k := map (fun br : bool * str => if fst br then N (dec_value (snd br)) else T (snd br)) (runs s) in
  match k with N _ :: _ => T [] :: k | _ => k end.

(** Comparison of tuples; a text is never compared with a number *)
Fixpoint str_cmp (a b : str) {struct a} : comparison :=
  match a, b with
  | [], [] => Eq
  | [], _ => Lt
  | _, [] => Gt
  | x :: a', y :: b' => match Nat.compare (nat_of_ascii x) (nat_of_ascii y) with Eq => str_cmp a' b' | r => r end
  end.
Definition tok_cmp (a b : tok) : comparison :=
  match a, b with
  | T s, T s' => str_cmp s s'
  | N n, N n' => Nat.compare n n'
  | T _, N _ => Lt
  | N _, T _ => Gt
  end.
Fixpoint key_cmp (a b : list tok) : comparison :=
  match a, b with
  | [], [] => Eq
  | [], _ => Lt
  | _, [] => Gt
  | x :: a', y :: b' => match tok_cmp x y with Eq => key_cmp a' b' | r => r end
  end.
Definition key_leb (a b : list tok) : bool := match key_cmp a b with Gt => false | _ => true end.

(** sorted(l, key=...): stable *)
Fixpoint insert_by (key : str -> list tok) (x : str) (l : list str) : list str :=
  match l with
  | [] => [x]
  | y :: l' => if key_leb (key x) (key y) then x :: l else y :: insert_by key x l'
  end.
Definition sort_by (key : str -> list tok) (l : list str) : list str := fold_right (insert_by key) [] l.

(** phonelist.py:19-20 *)
Definition phonelist (units : list str) : list str := sort_by (fun s => nat_key (lower s)) units.

(** str(n), n : int *)
Fixpoint dec_digits (fuel n : nat) (acc : str) : str :=
  match fuel with
  | 0 => acc
  | S f => let acc := ascii_of_nat (48 + n mod 10) :: acc in
           if n / 10 =? 0 then acc else dec_digits f (n / 10) acc
  end.
Definition dec (n : nat) : str := dec_digits (S n) n [].

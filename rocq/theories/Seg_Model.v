(** Model of the scripts turning segments into frame labels and back:
    recipes/aud/utils/convert_align.py, ali2trans.py,
    recipes/aud/local/timit/phone_ali.py,
    recipes/timit_v2/utils/features-stack-parallel.py,
    features-extract-central-frame.py, prepare_state_labels.py. *)
From Coq Require Import List Arith ZArith Bool.
From Verif Require Import Prelude Edit_Model.
Import ListNotations.

Section Seg.
Context {A : Type}.
Variable eq_dec : forall x y : A, {x = y} + {x <> y}.

(** recipes/aud/utils/convert_align.py:17-21, for the lines of one utterance
    ([start], [end], unit), already parsed.  Python's [x] * n is empty for
    negative n, as is [repeat x (Z.to_nat n)]. *)
Fixpoint convert_align (lines : list (Z * Z * A)) : list A :=
  match lines with
  | [] => []
  | (s, e, u) :: t => repeat u (Z.to_nat (e - s + 1)) ++ convert_align t
  end.

(** recipes/aud/utils/ali2trans.py:15: groupby over the tokens of the whole
    line, the utterance id included *)
Definition ali2trans (line : list A) : list A := groupby eq_dec line.

(** recipes/aud/local/timit/phone_ali.py:18-30.  A line is the list of its
    tokens; [parse] is Python's int() on a token; [fr z] is
    int(z * factor). *)
Definition timit_line (parse : A -> result Z) (fr : Z -> Z) (acc : list A)
    (tokens : list A) : result (list A) :=
  match tokens with
  | [] => Ok acc
  | [a; b; lab] =>
      bindr (parse a) (fun s => bindr (parse b) (fun e =>
        Ok (acc ++ repeat lab (Z.to_nat (fr e - fr s)))))
  | _ => Err ValueError
  end.
Definition read_timit_labels (parse : A -> result Z) (fr : Z -> Z)
    (lines : list (list A)) : result (list A) :=
  foldM (timit_line parse fr) lines [].

(** recipes/timit_v2/utils/features-stack-parallel.py:20-29.  data is a list
    of rows; data[0] of an empty array raises IndexError.  The result rows are
    the flattened slices padded[i-context : i+context+1]. *)
Definition stack_features (data : list (list A)) (context : nat)
  : result (list (list A)) :=
  match context with
  | 0 => Ok data
  | _ =>
    match data with
    | [] => Err IndexError
    | d0 :: _ =>
      let padded := repeat d0 context ++ data ++ repeat (last data d0) context in
      Ok (map (fun i => concat (firstn (2 * context + 1) (skipn (i - context) padded)))
              (seq context (length data)))
    end
  end.

End Seg.

(** recipes/timit_v2/utils/features-extract-central-frame.py:13-26.
    int(start + .5 * (i - start)) is (start + i) / 2 rounded down: i >= start
    inside the loop, and after it i = n-1 and start <= n, where truncation of
    the non-negative number also rounds down. *)
Fixpoint cf_loop {L : Type} (leq : forall x y : L, {x = y} + {x <> y})
    (mapping : list (nat * L)) (ali : list nat) (i start : nat) (prev : L)
    (cfs : list (L * nat)) : result (nat * L * list (L * nat)) :=
  match ali with
  | [] => Ok (start, prev, cfs)
  | pdf :: t =>
      match dget Nat.eq_dec mapping pdf with
      | None => Err KeyError
      | Some label =>
          if leq label prev then cf_loop leq mapping t (S i) start prev cfs
          else cf_loop leq mapping t (S i) (S i) label
                 (cfs ++ [(prev, (start + i) / 2)])
      end
  end.
Definition get_cf {L : Type} (leq : forall x y : L, {x = y} + {x <> y})
    (ali : list nat) (mapping : list (nat * L)) : result (list (L * nat)) :=
  match ali with
  | [] => Err IndexError
  | pdf :: _ =>
      match dget Nat.eq_dec mapping pdf with
      | None => Err KeyError
      | Some prev =>
          bindr (cf_loop leq mapping ali 0 0 prev []) (fun r =>
            match r with
            | (start, prev, cfs) =>
                Ok (cfs ++ [(prev, (start + (length ali - 1)) / 2)])
            end)
      end
  end.

(** recipes/timit_v2/utils/prepare_state_labels.py:37-46 for one utterance:
    [ids] the phone ids listed in phones.txt, n states per unit.  The slice of
    range(len(ids)*n) stops silently at its end. *)
Definition state_slice (ids : list nat) (n s : nat) : list nat :=
  firstn n (skipn (s * n) (seq 0 (length ids * n))).
Definition prepare_state_labels (ids : list nat) (n : nat) (utt : list nat)
  : result (list nat) :=
  bindr (mapM (fun s => if in_dec Nat.eq_dec s ids then Ok (state_slice ids n s)
                        else Err KeyError) utt)
        (fun ss => Ok (concat ss)).

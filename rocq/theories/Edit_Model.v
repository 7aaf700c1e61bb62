(** Model of the two error-rate scripts: recipes/aud/utils/ter.py and
    recipes/timit_v2/utils/score.py.  Reading the files and printing are not
    modelled: transcriptions are dictionaries (association lists in insertion
    order, keys = utterance ids) of token lists. *)
From Coq Require Import List Arith Bool Lia.
From Verif Require Import Prelude.
Import ListNotations.

(** ** numpy integer matrices, with bounds checks *)
Record mat : Type := Mat { mrows : nat; mcols : nat; mcell : nat -> nat -> nat }.

(** np.zeros((n, m)) -- ter.py:46-47, score.py:80 *)
Definition zeros (n m : nat) : mat := Mat n m (fun _ _ => 0).

(** d[i][j] read; non-negative indices only (all the indices of both scripts
    are), out of bounds raises IndexError *)
Definition mget (d : mat) (i j : nat) : result nat :=
  if (i <? mrows d) && (j <? mcols d) then Ok (mcell d i j) else Err IndexError.

(** d[i][j] = v *)
Definition mset (d : mat) (i j v : nat) : result mat :=
  if (i <? mrows d) && (j <? mcols d)
  then Ok (Mat (mrows d) (mcols d)
             (fun a b => if (a =? i) && (b =? j) then v else mcell d a b))
  else Err IndexError.

(** list indexing l[i], i >= 0 *)
Definition lget {A} (l : list A) (i : nat) : result A :=
  match nth_error l i with Some x => Ok x | None => Err IndexError end.

Section Tokens.
Context {A : Type} (eq_dec : forall x y : A, {x = y} + {x <> y}).

(** ter.py:48-53: body of the initialisation loop *)
Definition ter_init_cell (d : mat) (i j : nat) : result mat :=
  if i =? 0 then mset d 0 j j
  else if j =? 0 then mset d i 0 i
  else Ok d.

(** ter.py:58-64: body of the computation loop *)
Definition ter_cell (r h : list A) (d : mat) (i j : nat) : result mat :=
  bindr (lget r (i - 1)) (fun ri =>
  bindr (lget h (j - 1)) (fun hj =>
  if eq_dec ri hj then
    bindr (mget d (i - 1) (j - 1)) (fun v => mset d i j v)
  else
    bindr (mget d (i - 1) (j - 1)) (fun s =>
    bindr (mget d i (j - 1)) (fun ins =>
    bindr (mget d (i - 1) j) (fun del =>
    mset d i j (Nat.min (Nat.min (s + 1) (ins + 1)) (del + 1))))))).

(** `for i in is: for j in js: body` *)
Definition for2 (body : mat -> nat -> nat -> result mat)
    (is js : list nat) (d : mat) : result mat :=
  foldM (fun d i => foldM (fun d j => body d i j) js d) is d.

(** ter.py:21-66 *)
Definition wer (r h : list A) : result nat :=
  let d := zeros (length r + 1) (length h + 1) in
  bindr (for2 ter_init_cell (seq 0 (length r + 1)) (seq 0 (length h + 1)) d)
  (fun d =>
  bindr (for2 (ter_cell r h) (seq 1 (length r)) (seq 1 (length h)) d)
  (fun d => mget d (length r) (length h))).

(** dictionary lookup; None = KeyError *)
Fixpoint dget {K V} (keq : forall x y : K, {x = y} + {x <> y})
    (d : list (K * V)) (k : K) : option V :=
  match d with
  | [] => None
  | (k', v) :: t => if keq k k' then Some v else dget keq t k
  end.

(** itertools.groupby + x[0]: first element of each run of equal elements
    -- ter.py:113-116, ali2trans.py:15, entropy_rate.py:15 *)
Fixpoint groupby_from (prev : A) (l : list A) : list A :=
  match l with
  | [] => []
  | x :: t => if eq_dec prev x then groupby_from prev t
              else x :: groupby_from x t
  end.
Definition groupby (l : list A) : list A :=
  match l with [] => [] | x :: t => x :: groupby_from x t end.

(** ter.py:81-92, the tokens of one utterance: unmapped tokens dropped *)
Fixpoint map_tokens (mapping : list (A * A)) (l : list A) : list A :=
  match l with
  | [] => []
  | x :: t => match dget eq_dec mapping x with
              | Some y => y :: map_tokens mapping t
              | None => map_tokens mapping t
              end
  end.

(** ter.py:108-116: options of main applied to one transcription.
    [merge] is "args.no_repeat is False", i.e. --no-repeat was given. *)
Definition ter_prepare (mapping : option (list (A * A))) (merge : bool)
    (l : list A) : list A :=
  let l := match mapping with Some m => map_tokens m l | None => l end in
  if merge then groupby l else l.

(** ter.py:125-135.  Utterance ids are natural numbers.  The result is the
    fraction (acc_wer, nwords) whose quotient times 100 is printed;
    nwords = 0 is the ZeroDivisionError of line 135 (numpy: acc_wer is an
    int64 scalar or the int 0 and nwords an int; in the int64 case numpy only
    warns and yields nan/inf, we model both as the error). *)
Definition ter_body (hyp : list (nat * list A)) (acc : nat * nat)
    (u : nat * list A) : result (nat * nat) :=
  match dget Nat.eq_dec hyp (fst u) with
  | None => Ok acc
  | Some h => bindr (wer (snd u) h) (fun e =>
                Ok (fst acc + e, snd acc + length (snd u)))
  end.

Definition ter_main (mapping : option (list (A * A))) (merge : bool)
    (ref hyp : list (nat * list A)) : result (nat * nat) :=
  let prep := map (fun u : nat * list A =>
                     (fst u, ter_prepare mapping merge (snd u))) in
  bindr (foldM (ter_body (prep hyp)) (prep ref) (0, 0)) (fun acc =>
  if snd acc =? 0 then Err ZeroDivisionError else Ok acc).

(** ** score.py *)
(** score.py:27-49.  [remove] = None or the list of units to drop,
    [dup] = (duplicate != 'no').  phone_map[i] raises KeyError. *)
Definition mem_tok (x : A) (l : list A) : bool :=
  if in_dec eq_dec x l then true else false.

Fixpoint score_map (phone_map : list (A * A)) (remove : list A)
    (l : list A) : result (list A) :=
  match l with
  | [] => Ok []
  | x :: t =>
    (* [phone_map[i] for i in text if i not in remove and phone_map[i] not in
       remove] (with no remove list: remove = []) *)
    if mem_tok x remove then score_map phone_map remove t
    else match dget eq_dec phone_map x with
         | None => Err KeyError
         | Some y =>
           if mem_tok y remove then score_map phone_map remove t
           else bindr (score_map phone_map remove t) (fun r => Ok (y :: r))
         end
  end.

(** score.py:45-46 : `i == 0 or filter_text[i-1] != elem` *)
Definition dedup (l : list A) : list A :=
  flat_map (fun i =>
    match nth_error l i with
    | None => []
    | Some e =>
      if i =? 0 then [e]
      else match nth_error l (i - 1) with
           | Some p => if eq_dec p e then [] else [e]
           | None => [e]
           end
    end) (seq 0 (length l)).

Definition filter_text (remove : option (list A)) (dup : bool)
    (phone_map : option (list (A * A))) (text : list A) : result (list A) :=
  bindr
    (match phone_map with
     | Some pm =>
       score_map pm (match remove with Some r => r | None => [] end) text
     | None =>
       Ok (match remove with
           | Some r => filter (fun x => negb (mem_tok x r)) text
           | None => text
           end)
     end)
    (fun l => Ok (if dup then l else dedup l)).

(** score.py:87-91, body of the computation loop (i over ref, j over hyp,
    rows of the matrix = hyp).  The float matrix only holds integers. *)
Definition score_cell (ref hyp : list A) (m : mat) (i j : nat) : result mat :=
  bindr (mget m (j - 1) i) (fun a =>
  bindr (mget m j (i - 1)) (fun b =>
  bindr (mget m (j - 1) (i - 1)) (fun c =>
  bindr (lget ref (i - 1)) (fun ri =>
  bindr (lget hyp (j - 1)) (fun hj =>
  let sub := c + (if eq_dec ri hj then 0 else 1) in
  mset m j i (Nat.min (Nat.min (a + 1) (b + 1)) sub)))))).

(** score.py:80-92; mtrix[-1, -1] is cell (len(hyp), len(ref)) *)
Definition score_err (ref hyp : list A) : result nat :=
  let m := zeros (length hyp + 1) (length ref + 1) in
  bindr (foldM (fun m i => mset m 0 i i) (seq 0 (length ref + 1)) m) (fun m =>
  bindr (foldM (fun m i => mset m i 0 i) (seq 0 (length hyp + 1)) m) (fun m =>
  bindr (for2 (score_cell ref hyp) (seq 1 (length ref)) (seq 1 (length hyp)) m)
  (fun m => mget m (length hyp) (length ref)))).

(** score.py:70-95.  sys.exit when the sorted key lists differ is modelled by
    OtherError; keys of a dictionary are distinct, so sorted equality is
    equality as sets (checked by inclusion both ways). *)
Definition same_keys (a b : list nat) : bool :=
  forallb (fun k => existsb (Nat.eqb k) b) a
  && forallb (fun k => existsb (Nat.eqb k) a) b.

Definition score_body remove dup pm (hyp : list (nat * list A))
    (acc : nat * nat) (u : nat * list A) : result (nat * nat) :=
  bindr (filter_text remove dup pm (snd u)) (fun r =>
  match dget Nat.eq_dec hyp (fst u) with
  | None => Err KeyError
  | Some h0 =>
    bindr (filter_text remove dup pm h0) (fun h =>
    bindr (score_err r h) (fun e =>
    Ok (fst acc + e, snd acc + length r)))
  end).

Definition score_main remove dup pm (ref hyp : list (nat * list A))
    : result (nat * nat) :=
  if negb (same_keys (map fst ref) (map fst hyp)) then Err OtherError
  else
    bindr (foldM (score_body remove dup pm hyp) ref (0, 0)) (fun acc =>
    if snd acc =? 0 then Err ZeroDivisionError else Ok acc).

End Tokens.

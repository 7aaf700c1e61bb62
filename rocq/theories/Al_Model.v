(** Models of recipes/timit_v2/utils/compare-alignments.py and
    mutual-information.py.  Symbols, states and file names are natural numbers;
    dictionaries are association lists in insertion order; numbers are exact
    reals. *)
From Coq Require Import List Arith Bool Reals.
From Verif Require Import Prelude Edit_Model Dec_Model Map_Model.
Import ListNotations.
Local Open Scope R_scope.

Definition table : Type := list (nat * R).
Definition joint : Type := list (nat * table).
Definition counts : Type := (joint * table * table)%type.

(** d[k] += v on a defaultdict of epsilon *)
Definition dadd (eps : R) (d : table) (k : nat) (v : R) : table :=
  dset d k (dget0 eps d k + v).

Definition jadd (eps : R) (j : joint) (r h : nat) (v : R) : joint :=
  dset j r (dadd eps (dget0 [] j r) h v).

Definition dlook (d : list (nat * nat)) (k : nat) : result nat :=
  match dget Nat.eq_dec d k with Some v => Ok v | None => Err KeyError end.

(** compare-alignments.py:62-67 *)
Definition count_frame (eps : R) (ref_map hyp_map : list (nat * nat)) (c : counts) (f : nat * nat)
  : result counts :=
  bindr (dlook ref_map (fst f)) (fun r =>
  bindr (dlook hyp_map (snd f)) (fun h =>
  let '(j, rc, hc) := c in
  Ok (jadd eps j r h 1, dadd eps rc r 1, dadd eps hc h 1))).

(** compare-alignments.py:53-67; hyp_ali keeps its value when the file is
    missing, and is unbound before the first file. *)
Definition count_file (eps : R) (ref_map hyp_map : list (nat * nat)) (hyp_alis : list (nat * list nat))
  (st : option (list nat) * counts) (fa : nat * list nat) : result (option (list nat) * counts) :=
  let hyp_ali := match dget Nat.eq_dec hyp_alis (fst fa) with Some a => Some a | None => fst st end in
  match hyp_ali with
  | None => Err NameError
  | Some a => bindr (foldM (count_frame eps ref_map hyp_map) (combine (snd fa) a) (snd st)) (fun c =>
              Ok (hyp_ali, c))
  end.

Definition no_counts : counts := ([], [], []).

(** compare-alignments.py:50-67 *)
Definition count_alis (eps : R) (ref_map hyp_map : list (nat * nat)) (ref_alis hyp_alis : list (nat * list nat))
  : result counts :=
  bindr (foldM (count_file eps ref_map hyp_map hyp_alis) ref_alis (None, no_counts)) (fun st => Ok (snd st)).

(** compare-alignments.py:78-86; [groups]: a dictionary *)
Definition group_sym (eps : R) (j : joint) (rc : table) (name : nat) (m : joint * table) (sym : nat)
  : joint * table :=
  (fold_left (fun mj (hv : nat * R) => jadd eps mj name (fst hv) (snd hv)) (dget0 [] j sym) (fst m),
   dadd eps (snd m) name (dget0 eps rc sym)).

Definition group_counts (eps : R) (groups : list (nat * list nat)) (c : counts) : counts :=
  let '(j, rc, hc) := c in
  let m := fold_left (fun m g => fold_left (group_sym eps j rc (fst g)) (snd g) m) groups ([], []) in
  (fst m, snd m, hc).

(** mutual-information.py:32-42 *)
Definition total (d : table) : R := sumf snd d.
Definition normalize (d : table) : table := map (fun kv => (fst kv, snd kv / total d)) d.

(** mutual-information.py:49-57 (entropies divided by math.log(2)) *)
Definition ent (d : table) : R := sumf (fun kv => - snd kv * ln (snd kv)) d / ln 2.

Definition cond_ent (j : joint) (py : table) : R :=
  sumf (fun y => snd y * sumf (fun kv => - snd kv * ln (snd kv)) (normalize (dget0 [] j (fst y)))) py / ln 2.

Definition h_x (c : counts) : R := let '(j, rc, hc) := c in ent (normalize hc).
Definition h_y (c : counts) : R := let '(j, rc, hc) := c in ent (normalize rc).
(** H(X) - H(X|Y), mutual-information.py:60 *)
Definition mi_bits (c : counts) : R :=
  let '(j, rc, hc) := c in ent (normalize hc) - cond_ent j (normalize rc).

(** mutual-information.py:61: numpy divides by zero without raising *)
Definition norm_mi (c : counts) : option R :=
  if Req_EM_T (h_y c) 0 then None else Some (100 * mi_bits c / h_y c).

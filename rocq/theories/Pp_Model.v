(** The command hmm posteriors for a phone-loop:
    /repo/beer/cli/subcommands/hmm/posteriors.py:12 and 30-72, on top of
    HMM.posteriors (hmm.py:116-121, HMM_Model.hmm_posteriors).

    - The keys of start_pdf and end_pdf are the names of the units, in the same
      order (mkdecodegraph.py:55-63): the two dictionaries are the lists of their
      values.
    - The values may be NaN; the arrays are lists of rows.
    - The utterances that are listed, and those which are missing from the data
      set, are in Dec_Model.v (C71). *)
From Coq Require Import Reals List Arith Bool.
From Verif Require Import Prelude Vec Dec_Model FB_Model Set_Model HMM_Model Vt_Model Vl_Model.
Import ListNotations.
Local Open Scope R_scope.

(** Addition of numpy *)
Definition nadd (a b : num) : num :=
  match a, b with
  | Num x, Num y => Num (x + y)
  | NaN, _ | _, NaN => NaN
  | _, _ => PInf
  end.
Definition nsum (l : list num) : num := fold_right nadd (Num 0) l.

(** posteriors.py:12 *)
Definition EPS : R := 1 / 100000.

(** posteriors.py:68-69: np.log(EPS + posts); the logarithm of 0 (minus
    infinity) is not reached, and is NaN here like those of negative numbers *)
Definition nlog (a : num) : num :=
  match a with
  | Num x => if Rlt_dec 0 (EPS + x) then Num (ln (EPS + x)) else NaN
  | x => x
  end.

(** posteriors.py:30-35, one frame *)
Definition state2phone_row (starts ends : list nat) (row : list num) : list num :=
  map (fun se : nat * nat => nsum (slice row (fst se) (snd se))) (combine starts ends).

(** posteriors.py:64-69.  [m]: the emissions, [tr]: the transitions of the loop *)
Definition posteriors_utt (amax : nat -> (nat -> lp) -> nat) (scale : R) (state log : bool) (m : mset) (l : ploop)
  (tr : nat -> nat -> lp) (stats : mat) : result (list (list num)) :=
  let g := with_trans (pl_graph l) tr in
  bindr (hmm_posteriors amax m g (pl_order l) scale stats) (fun posts =>
  let posts := map (fun r => map r (seq 0 (cg_n g))) posts in
  let posts := if state then posts else map (state2phone_row (pl_starts l) (pl_ends l)) posts in
  Ok (if log then map (map nlog) posts else posts)).

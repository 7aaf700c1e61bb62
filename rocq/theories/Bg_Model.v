(** Variational training of a bigram phone-loop (BigramPhoneLoop, phoneloop.py:
    104-191): Vl_Model.v with one distribution of the next phone per phone, a
    CategoricalSet or an SBCategoricalSet (categoricalset.py).

    - The order of the sticks of an SBCategoricalSet is the one of its root, which
      training does not update: its callback is commented out
      (categoricalset.py:229).
    - The name [pl_weights] of the loop is not used. *)
From Coq Require Import Reals List Arith Bool.
From Verif Require Import Prelude Vec Lgamma FB_Model Edit_Model Dec_Model Set_Model
  HMM_Model Dist_Model Mat NW_Model SB_Model Vt_Model Vl_Model.
Import ListNotations.
Local Open Scope R_scope.

(** Prior and posterior of the rows.  The sticks of the n rows of an
    SBCategoricalSet are in one list. *)
Inductive bset : Type :=
| BCat (prior post : mat)
| BStick (n : nat) (ord : list nat) (prior post : list stick).

(** phoneloop.py:149-151 with categoricalset.py:46-48 or 299-301 *)
Definition bg_logm (K : nat) (b : bset) : mat :=
  match b with
  | BCat _ q => catset_logm (map dir_ess q) K
  | BStick n o _ q => sbset_logm (set_log_prob o n K q) K
  end.

(** phoneloop.py:145-157 *)
Definition bg_tune (l : ploop) (b : bset) (tr : nat -> nat -> lp) : nat -> nat -> lp :=
  bigram_on_weights_update (bg_logm (length (pl_starts l)) b) (pl_starts l) (pl_ends l) tr.

Record bgst : Type := { bg_set : bset; bg_pars : state; bg_trans : nat -> nat -> lp }.

(** phoneloop.py:135-143 *)
Definition bg_init (l : ploop) (b : bset) (st : state) : bgst :=
  {| bg_set := b; bg_pars := st; bg_trans := bg_tune l b (cg_trans (pl_graph l)) |}.

(** phoneloop.py:178-186: the statistics of the rows, with the sufficient
    statistics of categoricalset.py:40-41 or 292-294 and the sum over the frames
    of 54-55 or 306-307 *)
Definition bg_rows (starts ends : list nat) (b : bset) (trans : list (nat -> nat -> num)) : mat :=
  map (fun e => colsum (length starts)
    (map (fun xi => let row := map (fun s => num_val (xi e s)) starts in
                    match b with BCat _ _ => cat_stats row | BStick _ _ _ _ => row end) trans)) ends.

(** phoneloop.py:174-191.  With an alignment there is no transition posterior:
    CategoricalSet.accumulate is called with an argument less than it needs
    (categoricalset.py:50), SBCategoricalSet.accumulate raises NotImplementedError,
    which is a RuntimeError (303-304). *)
Definition bg_acc (amax : nat -> (nat -> lp) -> nat) (scale : R) (l : ploop) (m : mset) (b : bset)
  (tr : nat -> nat -> lp) (x : lutt) : result (sdict * mat) :=
  let u := lu_utt l tr x in
  bindr (hmm_ellh amax m (u_graph u) (u_order u) (u_own u) Soft scale (u_stats u)) (fun vc =>
  match hmm_accumulate m (cg_n (u_graph u)) (u_order u) (snd vc) (u_stats u) with
  | None => Err OtherError
  | Some d =>
      match c_trans (snd vc), b with
      | Some trans, _ => Ok (d, bg_rows (pl_starts l) (pl_ends l) b trans)
      | None, BCat _ _ => Err TypeError
      | None, BStick _ _ _ _ => Err RuntimeError
      end
  end).

(** objectives.py:92-107: sum over the utterances, weighted *)
Definition bg_stats (w : R) (n K : nat) (rows : list mat) : mat :=
  map (fun i => vscale w (colsum K (map (fun M => nth i M []) rows))) (seq 0 n).

(** parameters.py:134-141, with the callback of categoricalset.py:231-240 *)
Definition bg_update (lrate : R) (stats : mat) (b : bset) : bset :=
  match b with
  | BCat p q => BCat p (map2 (fun pq s => std_update dir_nat dir_from_nat lrate (fst pq) (snd pq) s) (combine p q) stats)
  | BStick n o p q =>
      BStick n o p (map2 (fun pq s => stick_update lrate (fst pq) (snd pq) s) (combine p q) (set_transform_stats o stats))
  end.

(** One step; [uw] says whether the set is in the group being updated
    (phoneloop.py:162-169). *)
Definition bg_step (amax : nat -> (nat -> lp) -> nat) (scale w lrate : R) (uw : bool) (group : list nat)
  (l : ploop) (skel : mset) (utts : list lutt) (s : bgst) : result bgst :=
  bindr (mapM (bg_acc amax scale l (inst (forms (bg_pars s)) skel) (bg_set s) (bg_trans s)) utts) (fun Ds =>
  let stats := bg_stats w (length (pl_ends l)) (length (pl_starts l)) (map snd Ds) in
  let b' := if uw then bg_update lrate stats (bg_set s) else bg_set s in
  Ok {| bg_set := b';
        bg_pars := apply_step w lrate group (map fst Ds) (bg_pars s);
        bg_trans := if uw then bg_tune l b' (bg_trans s) else bg_trans s |}).

Fixpoint bg_train (amax : nat -> (nat -> lp) -> nat) (scale w : R) (steps : list (R * bool * list nat))
  (l : ploop) (skel : mset) (utts : list lutt) (s : bgst) : result bgst :=
  match steps with
  | [] => Ok s
  | (lrate, uw, group) :: t =>
      bindr (bg_step amax scale w lrate uw group l skel utts s) (bg_train amax scale w t l skel utts)
  end.

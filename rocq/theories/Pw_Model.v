(** Variational training of a phone-loop (Vl_Model.v) whose weights have any of
    the three models: Categorical, SBCategorical, SBCategoricalHyperPrior.  The
    last one is what `beer hmm mkphoneloop` makes by default
    (cli/subcommands/hmm/mkphoneloop.py:31-34, 51-53, 71-78).

    The model of the weights is Mx_Model.v's [wpar]; the name [pl_weights] of
    the loop is not used here. *)
From Coq Require Import Reals List Arith Bool.
From Verif Require Import Prelude Vec Lgamma FB_Model Edit_Model Dec_Model Set_Model
  HMM_Model Dist_Model Mat NW_Model SB_Model Sk_Model Vt_Model Vl_Model Mx_Model.
Import ListNotations.
Local Open Scope R_scope.

Record pwst : Type := { pw_weights : wpar; pw_pars : state; pw_trans : nat -> nat -> lp }.

(** phoneloop.py:88-100: the statistics of the weights, with the sufficient
    statistics of categorical.py:64-65 or 151-153.  Those of an utterance with an
    alignment are zeros (phoneloop.py:99). *)
Definition pw_row (starts ends : list nat) (w : wpar) (c : hmm_cache) : list R :=
  match c_trans c with
  | Some trans =>
      let counts := phone_counts starts ends trans (hd (fun _ => NaN) (c_resps c)) in
      match w with WDir _ _ => cat_stats counts | _ => counts end
  | None => vzeros (length starts)
  end.

(** phoneloop.py:80-101: the statistics of the set and those of the weights *)
Definition pw_acc (amax : nat -> (nat -> lp) -> nat) (scale : R) (l : ploop) (m : mset) (w : wpar)
  (tr : nat -> nat -> lp) (x : lutt) : option (sdict * list R) :=
  let u := lu_utt l tr x in
  match hmm_ellh amax m (u_graph u) (u_order u) (u_own u) Soft scale (u_stats u) with
  | Ok (_, c) =>
      match hmm_accumulate m (cg_n (u_graph u)) (u_order u) c (u_stats u) with
      | Some d => Some (d, pw_row (pl_starts l) (pl_ends l) w c)
      | None => None
      end
  | Err _ => None
  end.

(** phoneloop.py:53-65 *)
Definition pw_tune (l : ploop) (w : wpar) (tr : nat -> nat -> lp) : nat -> nat -> lp :=
  on_weights_update (mx_log_weights (length (pl_starts l)) w) (pl_starts l) (pl_ends l) tr.

(** phoneloop.py:44-51 *)
Definition pw_init (l : ploop) (w : wpar) (st : state) : pwst :=
  {| pw_weights := w; pw_pars := st; pw_trans := pw_tune l w (cg_trans (pl_graph l)) |}.

(** One step: objectives.py:92-107, optimizers.py:26-31, parameters.py:134-141.
    [uw] says whether the weights are in the group being updated; their callback
    (phoneloop.py:49-50) is called after their update.  With a hyper-prior the
    other callback of the sticks (categorical.py:204-209) does not change what
    this one reads. *)
Definition pw_step (sort : list R -> list nat) (amax : nat -> (nat -> lp) -> nat) (scale w lrate : R)
  (uw : bool) (group : list nat) (l : ploop) (skel : mset) (utts : list lutt) (s : pwst) : option pwst :=
  match all_some (map (pw_acc amax scale l (inst (forms (pw_pars s)) skel) (pw_weights s) (pw_trans s)) utts) with
  | Some Ds =>
      let stats := vscale w (colsum (length (pl_starts l)) (map snd Ds)) in
      let w' := if uw then mx_weights_update sort lrate stats (pw_weights s) else pw_weights s in
      Some {| pw_weights := w';
              pw_pars := apply_step w lrate group (map fst Ds) (pw_pars s);
              pw_trans := if uw then pw_tune l w' (pw_trans s) else pw_trans s |}
  | None => None
  end.

Fixpoint pw_train (sort : list R -> list nat) (amax : nat -> (nat -> lp) -> nat) (scale w : R)
  (steps : list (R * bool * list nat)) (l : ploop) (skel : mset) (utts : list lutt) (s : pwst) : option pwst :=
  match steps with
  | [] => Some s
  | (lrate, uw, group) :: t =>
      match pw_step sort amax scale w lrate uw group l skel utts s with
      | Some s' => pw_train sort amax scale w t l skel utts s'
      | None => None
      end
  end.

(** The training of a bigram phone-loop with the commands `beer hmm accumulate`
    and `beer hmm update`: Dl_Model.v for the loops of Bg_Model.v.

    The parameter of the set of weights has the id [wid]; as in Dl_Model.v only
    its statistics are read from the heap (the callback of
    categoricalset.py:231-240 changes them before the update).  The statistics
    of the n rows are one vector. *)
From Coq Require Import Reals List Arith Bool ZArith.
From Verif Require Import Prelude Vec Lgamma FB_Model Edit_Model Dec_Model Opt_Model.
From Verif Require Import Set_Model Set_Spec HMM_Model Dist_Model Mat NW_Model SB_Model Sk_Model Vt_Model Vl_Model
  Bg_Model Dt_Model Dl_Model.
Import ListNotations.
Local Open Scope R_scope.

(** One utterance: objectives.py:176-190, hmm.py:73-100, phoneloop.py:174-191 *)
Definition bg_batch (amax : nat -> (nat -> lp) -> nat) (scale : R) (l : ploop) (m : mset) (wid : nat) (b : bset)
  (tr : nat -> nat -> lp) (x : lutt) : result batch :=
  let u := lu_utt l tr x in
  bindr (hmm_ellh amax m (u_graph u) (u_order u) (u_own u) Soft scale (u_stats u)) (fun vc =>
  match all_some (fst vc), hmm_accumulate m (cg_n (u_graph u)) (u_order u) (snd vc) (u_stats u) with
  | Some v, Some d =>
      match c_trans (snd vc), b with
      | Some trans, _ =>
          Ok {| b_llh := v;
                b_acc := map (fun pm => (fst pm, concat (snd pm))) d ++
                         [(wid, concat (bg_rows (pl_starts l) (pl_ends l) b trans))] |}
      | None, BCat _ _ => Err TypeError
      | None, BStick _ _ _ _ => Err RuntimeError
      end
  | _, _ => Err OtherError
  end).

Definition bg_data (amax : nat -> (nat -> lp) -> nat) (scale : R) (l : ploop) (m : mset) (wid : nat) (b : bset)
  (tr : nat -> nat -> lp) (xs : list lutt) : result (list (nat * batch)) :=
  bindr (mapM (bg_batch amax scale l m wid b tr) xs) (fun bs => Ok (combine (seq 0 (length xs)) bs)).

(** A vector as a matrix of n rows of length K *)
Definition as_matrix (n K : nat) (v : list R) : mat := map (fun i => firstn K (skipn (i * K) v)) (seq 0 n).

(** parameters.py:79-80, summed over the rows.  The root of an SBCategoricalSet is
    in no mean field group (categoricalset.py:296-297), so that basemodel.py:64-77
    leaves its divergence out. *)
Definition bset_kl (b : bset) : R :=
  match b with
  | BCat p q => rsum (map2 dir_kl q p)
  | BStick _ _ p q => sb_kl q p
  end.

(** One round *)
Definition bg_round (enum : list nat -> list nat) (amax : nat -> (nat -> lp) -> nat)
  (scale : R) (ds : nat) (l : ploop) (skel : mset) (wid : nat) (eg : list (list nat)) (lrate : R) (keep : bool)
  (xs : list lutt) (jobs : list (list nat)) (x : bgst * option (R * nat)) : result (bgst * option (R * nat)) :=
  let (s, saved) := x in
  let ps := params skel ++ [wid] in
  let n := length (pl_ends l) in
  let K := length (pl_starts l) in
  let kl := bset_kl (bg_set s) + model_kl skel (bg_pars s) in
  let before := if keep then saved else None in
  bindr (bg_data amax scale l (inst (forms (bg_pars s)) skel) wid (bg_set s) (bg_trans s) xs) (fun data =>
  bindr (mapM (accumulate_main enum ps kl ds data) jobs) (fun accs =>
  bindr (update_main enum ps (loop_groups wid eg) lrate before (loop_heap wid (n * K) (bg_pars s)) accs) (fun hs =>
  bindr (reload (params skel) (fst hs) (bg_pars s)) (fun st' =>
  let uw := existsb (Nat.eqb wid) (step_group (loop_groups wid eg) before) in
  let b' := if uw then bg_update (fst (snd hs)) (as_matrix n K (p_stats (fst hs wid))) (bg_set s) else bg_set s in
  Ok ({| bg_set := b'; bg_pars := st';
         bg_trans := if uw then bg_tune l b' (bg_trans s) else bg_trans s |},
      if keep then Some (snd hs) else saved))))).

Definition bg_rounds (enum : list nat -> list nat) (amax : nat -> (nat -> lp) -> nat)
  (scale : R) (ds : nat) (l : ploop) (skel : mset) (wid : nat) (eg : list (list nat)) (lrate : R) (keep : bool)
  (xs : list lutt) (jobss : list (list (list nat))) (x : bgst * option (R * nat)) : result (bgst * option (R * nat)) :=
  foldM (fun x jobs => bg_round enum amax scale ds l skel wid eg lrate keep xs jobs x) jobss x.

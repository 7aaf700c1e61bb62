(** The values `beer hmm accumulate` and `beer hmm update` print when they train a
    bigram phone-loop: Lg_Model.v for the rounds of Db_Model.v.

    The divergence is summed over the parameters of the mean field groups
    (basemodel.py:43-50, 64-77).  The root of an SBCategoricalSet is in none of
    them (categoricalset.py:296-297). *)
From Coq Require Import Reals List Arith Bool ZArith.
From Verif Require Import Prelude Vec Lgamma FB_Model Edit_Model Dec_Model Opt_Model.
From Verif Require Import Set_Model Set_Spec HMM_Model Dist_Model Mat NW_Model SB_Model Sk_Model Vt_Model Vl_Model
  Bg_Model Dt_Model Dl_Model Db_Model Lg_Model.
Import ListNotations.
Local Open Scope R_scope.

(** accumulate.py:65 and update.py:69 in one round (Db_Model.bg_round) *)
Definition bg_log (enum : list nat -> list nat) (amax : nat -> (nat -> lp) -> nat)
  (scale : R) (ds : nat) (l : ploop) (skel : mset) (wid : nat) (eg : list (list nat)) (lrate : R) (keep : bool)
  (xs : list lutt) (jobs : list (list nat)) (x : bgst * option (R * nat)) : result (list (result R) * R) :=
  let (s, saved) := x in
  let ps := params skel ++ [wid] in
  let kl := bset_kl (bg_set s) + model_kl skel (bg_pars s) in
  bindr (bg_data amax scale l (inst (forms (bg_pars s)) skel) wid (bg_set s) (bg_trans s) xs) (fun data =>
  bindr (mapM (accumulate_main enum ps kl ds data) jobs) (fun accs =>
  bindr (update_log enum ps (loop_groups wid eg) lrate (if keep then saved else None)
           (loop_heap wid (length (pl_ends l) * length (pl_starts l)) (bg_pars s)) accs)
    (fun v => Ok (map (message ds) accs, v)))).

(** The training of a phone-loop with the commands `beer hmm accumulate` and
    `beer hmm update` (beer/cli/subcommands/hmm/accumulate.py, update.py), as in
    recipes/aud/steps/aud.sh:108-131.  Same conventions as Dt_Model.v, which has
    the rounds of an HMM without parameters on its transitions; the loop and the
    three models of its weights are those of Pw_Model.v.

    The parameter of the weights has the id [wid].  Its update is not the one of
    Opt_Model.v: the callbacks of the stick-breaking models change its
    statistics before the update and its prior after it (categorical.py).  So
    only the statistics the optimiser left there are read from the heap. *)
From Coq Require Import Reals List Arith Bool ZArith.
From Verif Require Import Prelude Vec Lgamma FB_Model Edit_Model Dec_Model Opt_Model.
From Verif Require Import Set_Model Set_Spec HMM_Model Dist_Model Mat NW_Model SB_Model Sk_Model Vt_Model Vl_Model Mx_Model
  Pw_Model Dt_Model.
Import ListNotations.
Local Open Scope R_scope.

(** phoneloop.py:70-78: the groups of the set (basemodel.py), the weights being
    in the first one *)
Definition loop_groups (wid : nat) (eg : list (list nat)) : list (list nat) :=
  match eg with
  | [] => [[wid]]
  | g :: t => (g ++ [wid]) :: t
  end.

(** One utterance: objectives.py:176-190, hmm.py:73-100, phoneloop.py:83-101 *)
Definition loop_batch (amax : nat -> (nat -> lp) -> nat) (scale : R) (l : ploop) (m : mset) (wid : nat) (w : wpar)
  (tr : nat -> nat -> lp) (x : lutt) : result batch :=
  let u := lu_utt l tr x in
  bindr (hmm_ellh amax m (u_graph u) (u_order u) (u_own u) Soft scale (u_stats u)) (fun vc =>
  match all_some (fst vc), hmm_accumulate m (cg_n (u_graph u)) (u_order u) (snd vc) (u_stats u) with
  | Some v, Some d =>
      Ok {| b_llh := v;
            b_acc := map (fun pm => (fst pm, concat (snd pm))) d ++
                     [(wid, pw_row (pl_starts l) (pl_ends l) w (snd vc))] |}
  | _, _ => Err OtherError
  end).

Definition loop_data (amax : nat -> (nat -> lp) -> nat) (scale : R) (l : ploop) (m : mset) (wid : nat) (w : wpar)
  (tr : nat -> nat -> lp) (xs : list lutt) : result (list (nat * batch)) :=
  bindr (mapM (loop_batch amax scale l m wid w tr) xs) (fun bs => Ok (combine (seq 0 (length xs)) bs)).

(** parameters.py:83-113.  The posterior of the weights is not in the heap, see
    above. *)
Definition loop_heap (wid n : nat) (st : state) : heap :=
  fun p => if Nat.eqb p wid then {| p_prior := []; p_post := []; p_stats := vzeros n; p_cbs := [] |}
           else heap_of st p.

(** optimizers.py:26-31, update.py:36-39: the group the step is for *)
Definition step_group (groups : list (list nat)) (saved : option (R * nat)) : list nat :=
  let count := match saved with Some (_, c) => c | None => 0%nat end in
  nth (count mod length groups) groups [].

(** One round *)
Definition loop_round (enum : list nat -> list nat) (sort : list R -> list nat) (amax : nat -> (nat -> lp) -> nat)
  (scale : R) (ds : nat) (l : ploop) (skel : mset) (wid : nat) (eg : list (list nat)) (lrate : R) (keep : bool)
  (xs : list lutt) (jobs : list (list nat)) (x : pwst * option (R * nat)) : result (pwst * option (R * nat)) :=
  let (s, saved) := x in
  let ps := params skel ++ [wid] in
  let n := length (pl_starts l) in
  let kl := mx_weights_kl (pw_weights s) + model_kl skel (pw_pars s) in
  let before := if keep then saved else None in
  bindr (loop_data amax scale l (inst (forms (pw_pars s)) skel) wid (pw_weights s) (pw_trans s) xs) (fun data =>
  bindr (mapM (accumulate_main enum ps kl ds data) jobs) (fun accs =>
  bindr (update_main enum ps (loop_groups wid eg) lrate before (loop_heap wid n (pw_pars s)) accs) (fun hs =>
  bindr (reload (params skel) (fst hs) (pw_pars s)) (fun st' =>
  let uw := existsb (Nat.eqb wid) (step_group (loop_groups wid eg) before) in
  let w' := if uw then mx_weights_update sort (fst (snd hs)) (p_stats (fst hs wid)) (pw_weights s) else pw_weights s in
  Ok ({| pw_weights := w'; pw_pars := st';
         pw_trans := if uw then pw_tune l w' (pw_trans s) else pw_trans s |},
      if keep then Some (snd hs) else saved))))).

Definition loop_rounds (enum : list nat -> list nat) (sort : list R -> list nat) (amax : nat -> (nat -> lp) -> nat)
  (scale : R) (ds : nat) (l : ploop) (skel : mset) (wid : nat) (eg : list (list nat)) (lrate : R) (keep : bool)
  (xs : list lutt) (jobss : list (list (list nat))) (x : pwst * option (R * nat)) : result (pwst * option (R * nat)) :=
  foldM (fun x jobs => loop_round enum sort amax scale ds l skel wid eg lrate keep xs jobs x) jobss x.

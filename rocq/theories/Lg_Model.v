(** The values `beer hmm accumulate` and `beer hmm update` print at the end
    (beer/cli/subcommands/hmm/accumulate.py:65, update.py:69), added to the models
    of the two commands (Opt_Model.v, Dt_Model.v, Dl_Model.v).  The rounding of the
    format string (three decimals) is not modelled. *)
From Coq Require Import Reals List Arith Bool ZArith.
From Verif Require Import Prelude Vec Lgamma FB_Model Edit_Model Dec_Model Set_Model Set_Spec
  HMM_Model Dist_Model Mat NW_Model SB_Model Sk_Model Vt_Model Vl_Model Mx_Model Pw_Model Opt_Model Dt_Model Dl_Model.
Import ListNotations.
Local Open Scope R_scope.

(** float(elbo) / (count * size): objectives.py:71-72, a division of python
    numbers.  accumulate.py:65 reads the size from the data set and update.py:69
    from the objective. *)
Definition message (size : nat) (x : elbo * nat) : result R :=
  if Nat.eqb (snd x * size) 0 then Err ZeroDivisionError
  else Ok (val_of (e_value (fst x)) / INR (snd x * size)).

(** update.py:36-69: the message comes after the new model has been written.
    Neither sync, backward nor the step changes the value of the objective
    (objectives.py:92-116). *)
Definition update_log (enum : list nat -> list nat) (ps : list nat) (groups : list (list nat)) (lrate : R)
  (saved : option (R * nat)) (h : heap) (jobs : list (elbo * nat)) : result R :=
  bindr (update_main enum ps groups lrate saved h jobs) (fun _ =>
  bindr (foldM (update_loop enum) jobs None) (fun st =>
  match st with
  | None => Err AttributeError
  | Some x => message (e_ds (fst x)) x
  end)).

(** The messages of the jobs and of the update of one round (Dt_Model.round).
    A job whose message fails has written its file. *)
Definition round_log (enum : list nat -> list nat) (amax : nat -> (nat -> lp) -> nat) (scale : R)
  (ds : nat) (skel : mset) (groups : list (list nat)) (lrate : R) (keep : bool) (utts : list utt)
  (jobs : list (list nat)) (x : state * option (R * nat)) : result (list (result R) * R) :=
  let (st, saved) := x in
  bindr (data_of amax scale (inst (forms st) skel) utts) (fun data =>
  bindr (mapM (accumulate_main enum (params skel) (model_kl skel st) ds data) jobs) (fun accs =>
  bindr (update_log enum (params skel) groups lrate (if keep then saved else None) (heap_of st) accs)
    (fun v => Ok (map (message ds) accs, v)))).

(** The same for a phone-loop (Dl_Model.loop_round) *)
Definition loop_log (enum : list nat -> list nat) (amax : nat -> (nat -> lp) -> nat)
  (scale : R) (ds : nat) (l : ploop) (skel : mset) (wid : nat) (eg : list (list nat)) (lrate : R) (keep : bool)
  (xs : list lutt) (jobs : list (list nat)) (x : pwst * option (R * nat)) : result (list (result R) * R) :=
  let (s, saved) := x in
  let ps := params skel ++ [wid] in
  let kl := mx_weights_kl (pw_weights s) + model_kl skel (pw_pars s) in
  bindr (loop_data amax scale l (inst (forms (pw_pars s)) skel) wid (pw_weights s) (pw_trans s) xs) (fun data =>
  bindr (mapM (accumulate_main enum ps kl ds data) jobs) (fun accs =>
  bindr (update_log enum ps (loop_groups wid eg) lrate (if keep then saved else None)
           (loop_heap wid (length (pl_starts l)) (pw_pars s)) accs)
    (fun v => Ok (map (message ds) accs, v)))).

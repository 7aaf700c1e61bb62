(** Models of the hierarchical subspace model (beer/models/gsm.py:801-833) and
    of the training loops of beer/cli/subcommands/shmm/train.py and
    beer/cli/subcommands/hshmm/train.py.

    Parameters are natural numbers looked up in a heap (Opt_Model); [klp] is
    the KL divergence between the posterior and the prior of a parameter.
    Random draws are arguments.  The gradient steps on the parameters that are
    not conjugate are not modelled: an epoch gets the languages as they are at
    that epoch.  There are as many latent posteriors as languages (zip at
    gsm.py:816 would otherwise drop languages). *)
From Coq Require Import Reals List Arith Bool ZArith.
From Verif Require Import Prelude Vec Edit_Model Dec_Model Opt_Model Dist_Model LMat NW_Model Gs_Model.
Import ListNotations.
Local Open Scope R_scope.

(** What one language contributes: the values of its units (gsm.py:605-626),
    the statistics of its unit prior (628-629), the divergence of its latent
    posterior (gsm.py:820-823) and the statistics of its samples. *)
Record lang : Type := {
  lg_vals : list R;
  lg_acc : accs;
  lg_kl : R;
  lg_stats : list R
}.

(** gsm.py:816-825 for one language with diagonal posteriors: s_h the samples
    of the units, s_u those of the language; [uid] the parameter of the unit
    prior. *)
Definition lang_of (transform : list (list R) -> result (list (list (list R))))
  (params : list sparam) (uid : nat) (unit_prior root_prior : lprior)
  (posts : list ndc_par) (s_h : list (list (list R))) (stats : list (list R))
  (post : ndc_par) (s_u : list (list R)) : result lang :=
  bindr (gsm_llh transform params unit_prior (entropy_diag posts s_h) s_h stats) (fun r =>
  let urows := map (fun hs => vmean (map (lp_suff unit_prior) hs)) s_h in
  Ok {| lg_vals := fst r;
        lg_acc := [(uid, fold_right vadd (vzeros (length (nth 0 urows []))) urows)];
        lg_kl := nth 0 (xentropy root_prior [s_u]) 0 - nth 0 (entropy_diag [post] [s_u]) 0;
        lg_stats := vmean (map (lp_suff root_prior) s_u) |}).

Section Objective.
  Variable klp : param -> R.

  (** basemodel.py:76-77: sum over bayesian_parameters() *)
  Definition kl_params (h : heap) (ks : list nat) : R := rsum (map (fun k => klp (h k)) ks).

  (** gsm.py:811-826: the mean field factorization of a language is the one of
      the unit prior (gsm.py:589-591, 258-262), [up].  The result: the values
      and the summed statistics of the latent prior. *)
  Definition hgsm_llh (h : heap) (up : list nat) (langs : list lang)
    : result (list R * list R) :=
    bindr (mapM (fun l =>
             bindr (Opt_Model.elbo_of up (kl_params h up) (-1) {| b_llh := lg_vals l; b_acc := lg_acc l |}) (fun e =>
             Ok (val_of (e_value e) - lg_kl l))) langs) (fun vals =>
    match langs with
    | [] => Err RuntimeError      (* torch.stack([]) *)
    | l :: r => Ok (vals, fold_left (fun a l => vadd a (lg_stats l)) r (lg_stats l))
    end).

  (** objectives.py:176-190 on a HierarchicalGSM: [rp] the latent prior, [tp]
      the weights and bias of the shared transform (gsm.py:831-833). *)
  Definition hgsm_elbo (h : heap) (up : list nat) (rp : nat) (tp : list nat) (langs : list lang)
    : result elbo :=
    if Nat.eqb (length langs) 0 then Err ZeroDivisionError
    else
      bindr (hgsm_llh h up langs) (fun vs =>
      Opt_Model.elbo_of (rp :: tp) (kl_params h (rp :: tp)) (-1) {| b_llh := fst vs; b_acc := [(rp, snd vs)] |}).

  (** objectives.py:176-190 on a GSM *)
  Definition gsm_elbo (h : heap) (lp : nat) (tp : list nat) (vals : list R) (stats : list R)
    : result elbo :=
    Opt_Model.elbo_of (lp :: tp) (kl_params h (lp :: tp)) (-1) {| b_llh := vals; b_acc := [(lp, stats)] |}.

  Variable enum : list nat -> list nat.

  (** hshmm/train.py:107-112: the conjugate parameters of all the languages;
      only those of the unit prior are conjugate. *)
  Definition hg_groups (skip_root : bool) (up : list nat) (nlangs : nat) : list (list nat) :=
    if skip_root then [[]] else repeat up nlangs.

  (** hshmm/train.py:153-170 *)
  Definition hg_epoch (up : list nat) (rp : nat) (tp : list nat) (st : optim * heap) (langs : list lang)
    : result (optim * heap) :=
    let h0 := init_step (fst st) (snd st) in
    bindr (hgsm_elbo h0 up rp tp langs) (fun e =>
    bindr (backward enum true e h0) (fun h1 =>
    Ok (fst (step (fst st, h1, []))))).

  Definition hg_train (up : list nat) (rp : nat) (tp : list nat) (st : optim * heap)
    (epochs : list (list lang)) : result (optim * heap) :=
    foldM (hg_epoch up rp tp) epochs st.

  (** shmm/train.py:86-90 *)
  Definition shmm_groups (posteriors : bool) (lp : nat) : list (list nat) :=
    if posteriors then [[]] else [[lp]].

  (** shmm/train.py:113-117: the values and the statistics of the epoch *)
  Definition shmm_epoch (lp : nat) (tp : list nat) (st : optim * heap) (b : list R * list R)
    : result (optim * heap) :=
    let h0 := init_step (fst st) (snd st) in
    bindr (gsm_elbo h0 lp tp (fst b) (snd b)) (fun e =>
    bindr (backward enum true e h0) (fun h1 =>
    Ok (fst (step (fst st, h1, []))))).

  Definition shmm_train (lp : nat) (tp : list nat) (st : optim * heap) (epochs : list (list R * list R))
    : result (optim * heap) :=
    foldM (shmm_epoch lp tp) epochs st.
End Objective.

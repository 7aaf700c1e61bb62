(** Properties of the hierarchical subspace model and of its training. *)
From Coq Require Import Reals List Arith Bool ZArith Lra Lia Permutation.
From Verif Require Import Prelude Vec Edit_Model Dec_Model Opt_Model Opt_Spec Opt_Proofs Set_Index
  Dist_Model Dist_Proofs LMat NW_Model Gs_Model Gs_Spec Gs_Obj Dist_Spec Sp_Model Sp_Proofs Hg_Model.
From Verif Require Gs_Proofs.
Import ListNotations.
Local Open Scope R_scope.

Definition lang_ok (l : lang) : Prop := lg_vals l <> [].

(** The objective of the hierarchical model: every parameter pays once for its
    divergence. *)
Definition exact_objective (klp : param -> R) (h : heap) (params : list nat) (langs : list lang) : R :=
  sumf (fun l => rsum (lg_vals l) - lg_kl l) langs - sumf (fun k => klp (h k)) params.

Lemma elbo_of_all params kl b : b_llh b <> [] ->
  exists e, Opt_Model.elbo_of params kl (-1) b = Ok e /\ e_value e = VTensor (rsum (b_llh b) - kl) /\
    e_acc e = b_acc b /\ e_params e = nodup Nat.eq_dec params /\ e_mb e = length (b_llh b) /\ e_ds e = length (b_llh b).
Proof.
  intros H. unfold Opt_Model.elbo_of. cbn [Z.leb Z.compare].
  destruct (Nat.eqb_spec (length (b_llh b)) 0) as [E|E]; [destruct (b_llh b); [contradiction|discriminate]|].
  eexists. split; [reflexivity|]. cbn. split; [|auto]. f_equal.
  replace (INR (length (b_llh b)) / INR (length (b_llh b))) with 1; [ring|]. field. now apply not_0_INR.
Qed.

Definition sum_stats (langs : list lang) : list R :=
  match langs with [] => [] | l :: r => fold_left (fun a l => vadd a (lg_stats l)) r (lg_stats l) end.

Lemma hgsm_elbo_ok klp h up rp tp langs : langs <> [] -> Forall lang_ok langs ->
  exists e, hgsm_elbo klp h up rp tp langs = Ok e /\
    e_value e = VTensor (sumf (fun l => rsum (lg_vals l) - lg_kl l) langs
                         - INR (length langs) * sumf (fun k => klp (h k)) up
                         - sumf (fun k => klp (h k)) (rp :: tp)) /\
    e_acc e = [(rp, sum_stats langs)] /\ e_params e = nodup Nat.eq_dec (rp :: tp) /\
    e_mb e = length langs /\ e_ds e = length langs.
Proof.
  intros Hne Hok. unfold hgsm_elbo, hgsm_llh.
  rewrite (mapM_ok _ (fun l => rsum (lg_vals l) - kl_params klp h up - lg_kl l)).
  2:{ intros l Hl. rewrite Forall_forall in Hok. destruct (elbo_of_all up (kl_params klp h up)
        {| b_llh := lg_vals l; b_acc := lg_acc l |} (Hok l Hl)) as (e & -> & V & _). cbn [bindr]. rewrite V. reflexivity. }
  destruct (Nat.eqb_spec (length langs) 0) as [E|E]; [destruct langs; [contradiction|discriminate]|].
  set (vals := map _ langs).
  assert (Lv : length vals = length langs) by apply map_length.
  assert (Hv : vals <> []) by (intros X; rewrite X in Lv; cbn in Lv; lia).
  cbn [bindr]. replace (match langs with [] => Err RuntimeError
     | l :: r => Ok (vals, fold_left (fun a l => vadd a (lg_stats l)) r (lg_stats l)) end) with
    (Ok (vals, sum_stats langs)) by (destruct langs; [contradiction|reflexivity]).
  cbn [bindr fst snd].
  destruct (elbo_of_all (rp :: tp) (kl_params klp h (rp :: tp)) {| b_llh := vals; b_acc := [(rp, sum_stats langs)] |} Hv)
    as (e & -> & V & A & P & M & D). exists e. split; [reflexivity|]. cbn [b_llh b_acc] in *.
  split; [|rewrite A, P, M, D, Lv; auto]. rewrite V. f_equal. unfold kl_params, sumf. f_equal.
  unfold vals. clear. induction langs as [|l r IH]; [cbn; ring|]. cbn [map rsum]. rewrite IH. cbn [length]. rewrite S_INR. unfold kl_params. ring.
Qed.

(** ** C127: the objective of the hierarchical model *)

(** The divergence of the shared transform and of the latent prior of the
    languages is counted once, that of the unit prior once per language. *)
Theorem C127_value_partial : forall klp h up rp tp langs, langs <> [] -> Forall lang_ok langs ->
  exists e, hgsm_elbo klp h up rp tp langs = Ok e /\
    val_of (e_value e) = exact_objective klp h (up ++ rp :: tp) langs
                         - (INR (length langs) - 1) * sumf (fun k => klp (h k)) up.
Proof.
  intros klp h up rp tp langs Hne Hok. destruct (hgsm_elbo_ok klp h up rp tp langs Hne Hok) as (e & E & V & _).
  exists e. split; [exact E|]. rewrite V. cbn [val_of]. unfold exact_objective. rewrite sumf_app. ring.
Qed.

(** It is still a lower bound, and exact for one language or when the unit
    prior did not move. *)
Theorem C127_bound_partial : forall klp h up rp tp langs, (forall p, 0 <= klp p) -> langs <> [] -> Forall lang_ok langs ->
  exists e, hgsm_elbo klp h up rp tp langs = Ok e /\
    val_of (e_value e) <= exact_objective klp h (up ++ rp :: tp) langs /\
    (val_of (e_value e) = exact_objective klp h (up ++ rp :: tp) langs <->
     length langs = 1%nat \/ forall k, In k up -> klp (h k) = 0).
Proof.
  intros klp h up rp tp langs Hk Hne Hok. destruct (C127_value_partial klp h up rp tp langs Hne Hok) as (e & E & V).
  exists e. split; [exact E|]. rewrite V.
  assert (L1 : 1 <= INR (length langs)).
  { change 1 with (INR 1). apply le_INR. destruct langs; [contradiction|cbn; lia]. }
  assert (K0 : forall l, 0 <= sumf (fun k => klp (h k)) l).
  { induction l as [|a l IH]; [cbn; lra|]. rewrite sumf_cons. specialize (Hk (h a)). lra. }
  assert (K1 : forall l, sumf (fun k => klp (h k)) l = 0 -> forall k, In k l -> klp (h k) = 0).
  { induction l as [|a l IH]; [intros _ k []|]. rewrite sumf_cons. intros H. assert (A := Hk (h a)). specialize (K0 l).
    intros k [<-|Hin]; [lra|]. apply IH; auto; lra. }
  split; [specialize (K0 up); nra|]. split.
  - intros H. destruct (Nat.eq_dec (length langs) 1) as [E1|E1]; [now left|]. right. apply K1.
    assert (2 <= INR (length langs)).
    { change 2 with (INR 2). apply le_INR. destruct langs as [|? [|]]; cbn in *; [contradiction|lia|lia]. }
    specialize (K0 up). nra.
  - intros [H|H]; [rewrite H; cbn; ring|]. rewrite (sumf_zero _ up) by auto. ring.
Qed.

Theorem C127_counted_once_refuted : forall klp h u rp tp langs, (forall p, 0 <= klp p) -> 0 < klp (h u) ->
  (2 <= length langs)%nat -> Forall lang_ok langs ->
  exists e, hgsm_elbo klp h [u] rp tp langs = Ok e /\ 
    val_of (e_value e) < exact_objective klp h (u :: rp :: tp) langs.
Proof.
  intros klp h u rp tp langs Hk Hu HL Hok.
  destruct (C127_bound_partial klp h [u] rp tp langs Hk) as (e & E & B & I); [intros ->; cbn in HL; lia|auto|].
  exists e. split; [exact E|]. cbn [app] in *. destruct B as [B|B]; [exact B|]. apply I in B. destruct B as [B|B]; [lia|].
  specialize (B u (or_introl eq_refl)). lra.
Qed.

(** The divergence of a language is estimated on its own samples: the mean of
    ln q(h) - ln p(h). *)
Theorem C127_language : forall transform params uid unit_prior root_prior posts s_h stats post s_u d q l,
  lang_of transform params uid unit_prior root_prior posts s_h stats post s_u = Ok l ->
  ndc_ok d post -> s_u <> [] -> Forall (fun h => length h = d) s_u ->
  (forall h, length (lp_suff root_prior h) = q) -> length (lp_nat root_prior) = q ->
  (exists pv, gsm_llh transform params unit_prior (entropy_diag posts s_h) s_h stats = Ok (lg_vals l, pv)) /\
  lg_kl l = mean_of (fun h => ndc_forward post (ndc_suff_stats h) - lp_llh root_prior (lp_suff root_prior h)) s_u.
Proof.
  intros transform params uid up rprior posts s_h stats post s_u d q l H Hp Hu HF Hq Hn. unfold lang_of in H.
  destruct (gsm_llh transform params up (entropy_diag posts s_h) s_h stats) as [[v pv]|x]; [|discriminate].
  cbn [bindr fst] in H.
  assert (OI : forall a b : lang, Ok a = Ok b -> a = b) by congruence. apply OI in H. subst l. cbn [lg_vals lg_kl]. split; [eauto|].
  rewrite (xentropy_ok rprior [s_u] q) by (auto; repeat constructor; auto).
  rewrite (entropy_diag_ok d [post] [s_u]).
  2:{ apply Forall_cons; auto. }
  2:{ reflexivity. }
  2:{ apply Forall_cons; auto. }
  cbn [map map2 nth]. unfold mean_of. 
  rewrite (sumf_minus (fun h => ndc_forward post (ndc_suff_stats h)) (fun h => lp_llh rprior (lp_suff rprior h))). unfold Rdiv. ring.
Qed.

(** The statistics a language hands over: those of the unit prior are summed
    over its units, those of the root prior are those of its own embedding; both
    are means over the samples. *)
Theorem C127_language_statistics : forall transform params uid unit_prior root_prior posts s_h stats post s_u qu qr l,
  lang_of transform params uid unit_prior root_prior posts s_h stats post s_u = Ok l ->
  s_u <> [] -> s_h <> [] -> Forall (fun hs => hs <> []) s_h ->
  (forall h, length (lp_suff unit_prior h) = qu) -> (forall h, length (lp_suff root_prior h) = qr) ->
  (length (lg_stats l) = qr /\ forall i, (i < qr)%nat ->
     nth i (lg_stats l) 0 = mean_of (fun h => nth i (lp_suff root_prior h) 0) s_u) /\
  exists acc, lg_acc l = [(uid, acc)] /\ length acc = qu /\ forall i, (i < qu)%nat ->
     nth i acc 0 = sumf (fun hs => mean_of (fun h => nth i (lp_suff unit_prior h) 0) hs) s_h.
Proof.
  intros transform params uid up rprior posts s_h stats post s_u qu qr l H Hu Hh HF Lu Lr. unfold lang_of in H.
  destruct (gsm_llh transform params up (entropy_diag posts s_h) s_h stats) as [[v pv]|x]; [|discriminate].
  cbn [bindr fst] in H.
  assert (OI : forall a b : lang, Ok a = Ok b -> a = b) by congruence. apply OI in H. subst l. cbn [lg_stats lg_acc].
  assert (FR : forall (p : lprior) q l, (forall h, length (lp_suff p h) = q) -> Forall (fun r => length r = q) (map (lp_suff p) l))
    by (intros p q l E; apply Forall_map, Forall_forall; auto).
  assert (NE : forall (p : lprior) (l : list (list R)), l <> [] -> map (lp_suff p) l <> []) by (intros p [|? ?]; [congruence|discriminate]).
  assert (MM : forall (p : lprior) i l, mean_of (fun r => nth i r 0) (map (lp_suff p) l) = mean_of (fun h => nth i (lp_suff p h) 0) l).
  { intros p i l. unfold mean_of. rewrite sumf_map, map_length. reflexivity. }
  split.
  - split; [now apply Gs_Proofs.vmean_length; auto|]. intros i Hi. rewrite (Gs_Proofs.vmean_nth _ qr) by auto. apply MM.
  - eexists. split; [reflexivity|].
    assert (L0 : length (nth 0 (map (fun hs => vmean (map (lp_suff up) hs)) s_h) []) = qu).
    { destruct s_h as [|hs s_h]; [contradiction|]. cbn [map nth]. apply Gs_Proofs.vmean_length; auto. apply NE. now inversion_clear HF. }
    rewrite L0. clear L0 Hh. induction s_h as [|hs s_h IH]; cbn [map fold_right].
    + split; [apply vzeros_length|]. intros i _. rewrite sumf_nil. apply vzeros_nth.
    + inversion_clear HF as [|? ? Hhs HF']. destruct (IH HF') as [L E].
      assert (Lv : length (vmean (map (lp_suff up) hs)) = qu) by (apply Gs_Proofs.vmean_length; auto).
      split; [now apply vadd_length'|]. intros i Hi. rewrite sumf_cons, <- E, <- MM, <- (Gs_Proofs.vmean_nth _ qu) by auto.
      apply vadd_nth; lia.
Qed.

Theorem C127_empty_language : forall klp h up rp tp langs, In {| lg_vals := []; lg_acc := []; lg_kl := 0; lg_stats := [] |} langs ->
  hgsm_elbo klp h up rp tp langs = Err ZeroDivisionError.
Proof.
  intros klp h up rp tp langs Hin. unfold hgsm_elbo. destruct (Nat.eqb_spec (length langs) 0); [reflexivity|].
  unfold hgsm_llh.
  assert (E : mapM (fun l => bindr (Opt_Model.elbo_of up (kl_params klp h up) (-1) {| b_llh := lg_vals l; b_acc := lg_acc l |})
             (fun e => Ok (val_of (e_value e) - lg_kl l))) langs = Err ZeroDivisionError).
  { clear n. induction langs as [|l r IH]; [destruct Hin|]. cbn [mapM].
    destruct (lg_vals l) as [|v vs] eqn:Ev.
    - assert (Er : Opt_Model.elbo_of up (kl_params klp h up) (-1) {| b_llh := []; b_acc := lg_acc l |} = Err ZeroDivisionError) by reflexivity.
      rewrite Er. reflexivity.
    - destruct (elbo_of_all up (kl_params klp h up) {| b_llh := v :: vs; b_acc := lg_acc l |}) as (e & Ee & _); [discriminate|].
      rewrite Ee. cbn [bindr]. rewrite IH; [reflexivity|]. destruct Hin as [->|Hin]; [discriminate|exact Hin]. }
  rewrite E. reflexivity.
Qed.

(** Two languages of two units: unit prior 0 with divergence 3, latent prior 1
    with 1, transform 2 with 2. *)
Example C127_ex :
  let klp p := nth 0 (p_post p) 0 in
  let h k := {| p_prior := [0]; p_post := [match k with O => 3 | S n => INR k end]; p_stats := [0]; p_cbs := [] |} in
  let l a := {| lg_vals := [-10; a]; lg_acc := [(0%nat, [1])]; lg_kl := 1/2; lg_stats := [2] |} in
  exists e, hgsm_elbo klp h [0%nat] 1 [2%nat] [l (-20); l (-30)] = Ok e /\ val_of (e_value e) = -80 /\
            exact_objective klp h [0; 1; 2]%nat [l (-20); l (-30)] = -77.
Proof.
  intros klp h l.
  destruct (C127_value_partial klp h [0%nat] 1 [2%nat] [l (-20); l (-30)]) as (e & E & V).
  - discriminate.
  - repeat (apply Forall_cons; [discriminate|]). apply Forall_nil.
  - exists e. split; [exact E|]. rewrite V. unfold exact_objective, sumf, klp, h, l. cbn. lra.
Qed.

(** ** C128: the latent priors are trained *)

Lemma vscale_1 (v : list R) : vscale 1 v = v.
Proof. unfold vscale. rewrite <- (map_id v) at 2. apply map_ext. intros x. ring. Qed.

Lemma elbo_epoch enum o h e rp s n : is_enum enum -> (0 < n)%nat -> e_mb e = n -> e_ds e = n ->
  (exists v, e_value e = VTensor v) -> NoDup (e_params e) -> In rp (e_params e) -> e_acc e = [(rp, s)] ->
  exists h', bindr (backward enum true e h) (fun h1 => Ok (fst (step (o, h1, [])))) =
     Ok ({| o_groups := o_groups o; o_lrate := o_lrate o; o_count := S (o_count o) |}, h') /\
     forall k, h' k = iter (count_occ Nat.eq_dec (cur_group o) k) (ngu (o_lrate o))
                        (if Nat.eq_dec k rp then set_stats (h k) s else h k).
Proof.
  intros He Hn M D (v & V) Hnd Hin A.
  destruct (backward enum true e h) as [h1|x] eqn:B.
  2:{ unfold backward in B. rewrite V, M in B. destruct (Nat.eqb_spec n 0); [lia|discriminate]. }
  assert (H1 : forall k, h1 k = if Nat.eq_dec k rp then set_stats (h k) s else h k).
  { intros k. rewrite (backward_spec enum true e h h1 k He Hnd B). rewrite A, M, D.
    replace (INR n / INR n) with 1 by (field; apply not_0_INR; lia).
    unfold dget_acc. cbn [dget]. destruct (Nat.eq_dec k rp) as [->|E].
    - destruct (in_dec Nat.eq_dec rp (e_params e)); [|contradiction]. 
      destruct (Nat.eq_dec rp rp); [now rewrite vscale_1|congruence].
    - destruct (Nat.eq_dec rp k); [congruence|]. destruct (in_dec Nat.eq_dec k (e_params e)); reflexivity. }
  cbn [bindr]. exists (snd (fst (step (o, h1, [])))). split.
  - f_equal. rewrite (surjective_pairing (fst (step (o, h1, [])))) at 1. f_equal. apply step_optim.
  - intros k. rewrite step_heap, H1. reflexivity.
Qed.

(** shmm train: after an epoch the posterior of the latent prior follows the
    statistics of the units. *)
Theorem C128_shmm_epoch : forall klp enum lp tp o (h : heap) vals stats,
  is_enum enum -> vals <> [] -> o_groups o = shmm_groups false lp ->
  exists o' h', shmm_epoch klp enum lp tp (o, h) (vals, stats) = Ok (o', h') /\
    o_groups o' = o_groups o /\ o_lrate o' = o_lrate o /\
    h' lp = ngu (o_lrate o) (store_stats (h lp) stats) /\
    (forall k, k <> lp -> p_post (h' k) = p_post (h k)).
Proof.
  intros klp enum lp tp o h vals stats He Hv Hg. unfold shmm_epoch, gsm_elbo. cbn [fst snd].
  destruct (elbo_of_all (lp :: tp) (kl_params klp (init_step o h) (lp :: tp)) {| b_llh := vals; b_acc := [(lp, stats)] |} Hv)
    as (e & -> & V & A & P & M & D). cbn [b_llh b_acc] in *. cbn [bindr].
  destruct (elbo_epoch enum o (init_step o h) e lp stats (length vals)) as (h' & -> & H'); auto.
  - destruct vals; [contradiction|cbn; lia].
  - eauto.
  - rewrite P. apply NoDup_nodup.
  - rewrite P. apply nodup_In. now left.
  - eexists. exists h'. split; [reflexivity|]. cbn. split; [reflexivity|]. split; [reflexivity|].
    assert (C : cur_group o = [lp]) by (unfold cur_group; rewrite Hg; cbn; reflexivity).
    split.
    + rewrite H', C. cbn [count_occ]. destruct (Nat.eq_dec lp lp); [|congruence]. cbn [iter]. f_equal.
      rewrite init_step_spec, Hg. cbn. destruct (Nat.eq_dec lp lp); [|congruence]. reflexivity.
    + intros k Hk. rewrite H', C. cbn [count_occ]. destruct (Nat.eq_dec lp k); [congruence|]. cbn [iter].
      destruct (Nat.eq_dec k lp); [congruence|]. rewrite init_step_spec.
      destruct (in_dec Nat.eq_dec k (concat (o_groups o))); reflexivity.
Qed.

(** Training the posteriors only: nothing but their own optimizer moves. *)
Theorem C128_shmm_posteriors_only : forall klp enum lp tp epochs o (h : heap),
  is_enum enum -> Forall (fun b => fst b <> []) epochs -> o_groups o = shmm_groups true lp ->
  exists o' h', shmm_train klp enum lp tp (o, h) epochs = Ok (o', h') /\ forall k, p_post (h' k) = p_post (h k).
Proof.
  intros klp enum lp tp epochs o h He HF Hg. unfold shmm_train. revert o h Hg.
  induction HF as [|[vals stats] epochs Hv HF IH]; intros o h Hg; cbn [foldM]; [eauto|].
  unfold shmm_epoch at 1, gsm_elbo at 1. cbn [fst snd] in *.
  destruct (elbo_of_all (lp :: tp) (kl_params klp (init_step o h) (lp :: tp)) {| b_llh := vals; b_acc := [(lp, stats)] |} Hv)
    as (e & -> & V & A & P & M & D). cbn [b_llh b_acc] in *. cbn [bindr].
  destruct (elbo_epoch enum o (init_step o h) e lp stats (length vals)) as (h' & -> & H'); auto.
  - destruct vals; [contradiction|cbn; lia].
  - eauto.
  - rewrite P. apply NoDup_nodup.
  - rewrite P. apply nodup_In. now left.
  - cbn [bindr]. destruct (IH {| o_groups := o_groups o; o_lrate := o_lrate o; o_count := S (o_count o) |} h' Hg) as (o' & h2 & E & F).
    exists o', h2. split; [exact E|]. intros k. rewrite F, H'.
    assert (C : cur_group o = []).
    { unfold cur_group. rewrite Hg. cbn. reflexivity. }
    rewrite C. cbn [count_occ iter]. rewrite init_step_spec, Hg. cbn. destruct (Nat.eq_dec k lp); reflexivity.
Qed.

(** With the default learning rate the posterior of the latent prior is the
    prior plus the statistics of the last epoch. *)
Theorem C128_shmm_train : forall klp enum lp tp o (h : heap) epochs vals stats d,
  is_enum enum -> o_groups o = shmm_groups false lp -> o_lrate o = 1 ->
  Forall (fun b => fst b <> [] /\ length (snd b) = d) (epochs ++ [(vals, stats)]) ->
  length (p_prior (h lp)) = d -> length (p_post (h lp)) = d ->
  exists o' h', shmm_train klp enum lp tp (o, h) (epochs ++ [(vals, stats)]) = Ok (o', h') /\
    p_prior (h' lp) = p_prior (h lp) /\ p_post (h' lp) = vadd (p_prior (h lp)) stats.
Proof.
  intros klp enum lp tp o h epochs vals stats d He Hg Hl HF H1 H2. unfold shmm_train.
  revert o h Hg Hl H1 H2. induction epochs as [|[v s] epochs IH]; intros o h Hg Hl H1 H2; cbn [app foldM].
  - inversion_clear HF as [|? ? [Hv Hs] _]. cbn [fst snd] in *.
    destruct (C128_shmm_epoch klp enum lp tp o h vals stats He Hv Hg) as (o' & h' & -> & _ & _ & U & _).
    cbn [bindr]. exists o', h'. split; [reflexivity|]. rewrite U, Hl. split; [reflexivity|].
    unfold ngu. cbn [p_post set_post]. apply (vec_eq_nth _ _ d).
    + apply new_nparams_length; auto.
    + apply vadd_length'; auto.
    + intros i Hi. rewrite Opt_Proofs.new_nparams_nth; cbn [p_post p_prior p_stats store_stats set_stats]; try lia.
      rewrite vadd_nth by lia. ring.
  - inversion_clear HF as [|? ? [Hv Hs] HF']. cbn [fst snd] in *.
    destruct (C128_shmm_epoch klp enum lp tp o h v s He Hv Hg) as (o' & h' & -> & G' & L' & U & _).
    cbn [bindr]. destruct (IH HF' o' h') as (o2 & h2 & E & P & Q).
    + congruence.
    + congruence.
    + rewrite U. exact H1.
    + rewrite U. unfold ngu. cbn [p_post set_post]. apply new_nparams_length; auto.
    + exists o2, h2. split; [exact E|]. rewrite P, Q, U. auto.
Qed.

(** hshmm train: the unit prior is updated without statistics (it decays to its
    own prior) and the latent prior of the languages never moves. *)
Theorem C128_hierarchical_epoch : forall klp enum up rp tp o (h : heap) langs nl,
  is_enum enum -> langs <> [] -> Forall lang_ok langs -> NoDup up -> ~ In rp up -> (0 < nl)%nat ->
  o_groups o = hg_groups false up nl ->
  exists o' h', hg_epoch klp enum up rp tp (o, h) langs = Ok (o', h') /\
    o_groups o' = o_groups o /\ o_lrate o' = o_lrate o /\
    (forall u, In u up -> h' u = ngu (o_lrate o) (zero_stats (h u))) /\
    h' rp = set_stats (h rp) (sum_stats langs) /\
    (forall k, ~ In k up -> p_post (h' k) = p_post (h k)).
Proof.
  intros klp enum up rp tp o h langs nl He Hne Hok Hnd Hrp Hnl Hg. unfold hg_epoch. cbn [fst snd].
  destruct (hgsm_elbo_ok klp (init_step o h) up rp tp langs Hne Hok) as (e & -> & V & A & P & M & D). cbn [bindr].
  destruct (elbo_epoch enum o (init_step o h) e rp (sum_stats langs) (length langs)) as (h' & -> & H'); auto.
  - destruct langs; [contradiction|cbn; lia].
  - eauto.
  - rewrite P. apply NoDup_nodup.
  - rewrite P. apply nodup_In. now left.
  - eexists. exists h'. split; [reflexivity|]. cbn [o_groups o_lrate]. split; [reflexivity|]. split; [reflexivity|].
    unfold hg_groups in Hg.
    assert (C : cur_group o = up).
    { unfold cur_group. rewrite Hg, repeat_length. apply nth_repeat_any. apply Nat.mod_upper_bound. lia. }
    assert (CC : forall k, In k (concat (o_groups o)) <-> In k up).
    { intros k. rewrite Hg. rewrite in_concat. split.
      - intros (l & Hl & Hk). apply repeat_spec in Hl. now subst.
      - intros Hk. exists up. split; [|exact Hk]. destruct nl; [lia|now left]. }
    split; [|split].
    + intros u Hu. rewrite H', C. rewrite (proj1 (NoDup_count_occ' Nat.eq_dec up) Hnd u Hu). cbn [iter].
      destruct (Nat.eq_dec u rp) as [->|_]; [contradiction|]. rewrite init_step_spec.
      destruct (in_dec Nat.eq_dec u (concat (o_groups o))) as [_|X]; [reflexivity|]. exfalso. apply X, CC, Hu.
    + rewrite H', C. rewrite (proj1 (count_occ_not_In Nat.eq_dec up rp) Hrp). cbn [iter].
      destruct (Nat.eq_dec rp rp); [|congruence]. rewrite init_step_spec.
      destruct (in_dec Nat.eq_dec rp (concat (o_groups o))) as [X|_]; [|reflexivity]. exfalso. apply Hrp, CC, X.
    + intros k Hk. rewrite H', C. rewrite (proj1 (count_occ_not_In Nat.eq_dec up k) Hk). cbn [iter].
      rewrite init_step_spec.
      destruct (Nat.eq_dec k rp); destruct (in_dec Nat.eq_dec k (concat (o_groups o))); reflexivity.
Qed.

Theorem C128_hierarchical_decay_refuted : forall klp enum up rp tp epochs o (h : heap) nl u d,
  is_enum enum -> Forall (fun ls => ls <> [] /\ Forall lang_ok ls) epochs ->
  NoDup up -> ~ In rp up -> (0 < nl)%nat -> o_groups o = hg_groups false up nl ->
  In u up -> length (p_prior (h u)) = d -> length (p_post (h u)) = d -> length (p_stats (h u)) = d ->
  exists o' h', hg_train klp enum up rp tp (o, h) epochs = Ok (o', h') /\
    p_prior (h' u) = p_prior (h u) /\
    (forall i, (i < d)%nat -> nth i (p_post (h' u)) 0 - nth i (p_prior (h u)) 0 =
       (1 - o_lrate o) ^ length epochs * (nth i (p_post (h u)) 0 - nth i (p_prior (h u)) 0)) /\
    p_post (h' rp) = p_post (h rp) /\
    (o_lrate o = 1 -> epochs <> [] -> p_post (h' u) = p_prior (h u)).
Proof.
  intros klp enum up rp tp epochs o h nl u d He HF Hnd Hrp Hnl Hg Hu H1 H2 H3. unfold hg_train.
  assert (G : exists o' h', foldM (hg_epoch klp enum up rp tp) epochs (o, h) = Ok (o', h') /\
    p_prior (h' u) = p_prior (h u) /\ length (p_post (h' u)) = d /\
    (forall i, (i < d)%nat -> nth i (p_post (h' u)) 0 - nth i (p_prior (h u)) 0 =
       (1 - o_lrate o) ^ length epochs * (nth i (p_post (h u)) 0 - nth i (p_prior (h u)) 0)) /\
    p_post (h' rp) = p_post (h rp)).
  { revert o h Hg H1 H2 H3. induction epochs as [|ls epochs IH]; intros o h Hg H1 H2 H3; cbn [foldM].
    - exists o, h. split; [reflexivity|]. split; [reflexivity|]. split; [exact H2|]. split; [intros; cbn; ring|reflexivity].
    - inversion_clear HF as [|? ? [Hne Hok] HF'].
      destruct (C128_hierarchical_epoch klp enum up rp tp o h ls nl He Hne Hok Hnd Hrp Hnl Hg)
        as (o1 & h1 & -> & G1 & L1 & U1 & R1 & _). cbn [bindr]. specialize (U1 u Hu).
      assert (Z : length (p_stats (zero_stats (h u))) = d) by (unfold zero_stats; cbn; now rewrite vzeros_length).
      assert (Lz : length (p_post (h1 u)) = d).
      { rewrite U1. unfold ngu. cbn [p_post set_post]. apply Sp_Proofs.new_nparams_length; auto. }
      destruct (IH HF' o1 h1) as (o2 & h2 & E2 & P2 & Len2 & D2 & R2).
      + congruence.
      + rewrite U1. exact H1.
      + exact Lz.
      + rewrite U1. exact Z.
      + assert (Pu : p_prior (h1 u) = p_prior (h u)) by (rewrite U1; reflexivity).
        exists o2, h2. split; [exact E2|]. split; [congruence|]. split; [exact Len2|]. split.
        * intros i Hi. rewrite <- Pu at 1. rewrite D2 by exact Hi. rewrite L1, Pu, U1. unfold ngu. cbn [p_post set_post].
          rewrite Opt_Proofs.new_nparams_nth; try (cbn [p_post p_prior zero_stats set_stats]; lia).
          cbn [p_post p_prior p_stats zero_stats set_stats length pow].
          assert (Zn : nth i (vzeros (length (p_stats (h u)))) 0 = 0) by (unfold vzeros; apply nth_repeat).
          rewrite Zn. ring.
        * rewrite R2, R1. reflexivity. }
  destruct G as (o' & h' & E & P & Len & D & R). exists o', h'. split; [exact E|]. split; [exact P|]. split; [exact D|].
  split; [exact R|]. intros Hl Hn. apply (vec_eq_nth _ _ d); [exact Len|exact H1|].
  intros i Hi. specialize (D i Hi). rewrite Hl in D. replace (1 - 1) with 0 in D by ring.
  rewrite pow_i in D by (destruct epochs; [contradiction|cbn; lia]). lra.
Qed.

(** The options that freeze the subspace leave all the posteriors unchanged. *)
Theorem C128_frozen : forall klp enum up rp tp o (h : heap) langs, is_enum enum -> langs <> [] -> Forall lang_ok langs ->
  o_groups o = hg_groups true up (length langs) ->
  exists o' h', hg_epoch klp enum up rp tp (o, h) langs = Ok (o', h') /\ forall k, p_post (h' k) = p_post (h k).
Proof.
  intros klp enum up rp tp o h langs He Hne Hok Hg. unfold hg_epoch. cbn [fst snd].
  destruct (hgsm_elbo_ok klp (init_step o h) up rp tp langs Hne Hok) as (e & -> & V & A & P & M & D). cbn [bindr].
  destruct (elbo_epoch enum o (init_step o h) e rp (sum_stats langs) (length langs)) as (h' & -> & H'); auto.
  - destruct langs; [contradiction|cbn; lia].
  - eauto.
  - rewrite P. apply NoDup_nodup.
  - rewrite P. apply nodup_In. now left.
  - eexists. exists h'. split; [reflexivity|]. intros k. rewrite H'.
    assert (C : cur_group o = []) by (unfold cur_group; rewrite Hg; reflexivity). rewrite C. cbn [count_occ iter].
    rewrite init_step_spec, Hg. cbn. destruct (Nat.eq_dec k rp); reflexivity.
Qed.

(** One epoch with two languages and the default learning rate: the statistics
    of the units are lost. *)
Example C128_ex :
  let h : heap := fun k => {| p_prior := [1]; p_post := [5]; p_stats := [0]; p_cbs := [] |} in
  let l := {| lg_vals := [-10]; lg_acc := [(0%nat, [7])]; lg_kl := 1; lg_stats := [2] |} in
  exists o' h', hg_train (fun _ => 0) (fun l => l) [0%nat] 1 [2%nat]
                  (new_optim (hg_groups false [0%nat] 2) 1, h) [[l; l]] = Ok (o', h') /\
    p_post (h' 0%nat) = [1] /\ p_post (h' 1%nat) = [5].
Proof.
  intros h l.
  destruct (C128_hierarchical_decay_refuted (fun _ => 0) (fun l => l) [0%nat] 1 [2%nat] [[l; l]]
    (new_optim (hg_groups false [0%nat] 2) 1) h 2 0 1) as (o' & h' & E & _ & _ & R & U); auto.
  - intros x. reflexivity.
  - apply Forall_cons; [|apply Forall_nil]. split; [discriminate|].
    repeat (apply Forall_cons; [discriminate|]). apply Forall_nil.
  - apply NoDup_cons; [intros []|apply NoDup_nil].
  - cbn. lia.
  - now left.
  - exists o', h'. split; [exact E|]. split; [apply U; [reflexivity|discriminate]|exact R].
Qed.

Print Assumptions C127_value_partial.
Print Assumptions C127_bound_partial.
Print Assumptions C128_shmm_train.
Print Assumptions C128_hierarchical_decay_refuted.

(** C175: partial updates of a conjugate model converge geometrically to the
    exact log-evidence. *)
From Coq Require Import Reals List Arith Lia Lra FunctionalExtensionality.
From Verif Require Import Prelude Vec Lgamma Gibbs Dist_Model Dist_Spec Dist_Proofs NG_Proofs KL_Proofs Dist_Props
  Mat MatDet NW_Model NW_Spec LMat NW_Proofs NW_KL NW_Llh NW_Props Ev_Model Ev_Spec Ev_Proofs Ev_Props Cg_Model Cg_Spec Cg_Proofs.
Import ListNotations.
Local Open Scope R_scope.

Notation rates_ok := (Forall (fun r => 0 <= r <= 1)).

(** ** Categorical *)
Theorem C175_categorical : forall d prior post ks rates,
  dir_ok d prior -> dir_ok d post -> Forall (fun k => (k < d)%nat) ks -> rates_ok rates ->
  let rows := map (unit_row d) ks in
  let log_evidence := ln (urn_prob d (fun k => nth k prior 0) ks) in
  let best := cat_train 1 prior post rows in
  let after rs := cat_trains rs prior post rows in
  dir_ok d (after rates) /\
  0 <= log_evidence - cat_objective prior (after rates) rows <= left_over rates * (dir_kl post best + dir_kl best post) /\
  (forall r, 0 <= r <= 1 -> cat_objective prior (after rates) rows <= cat_objective prior (after (rates ++ [r])) rows) /\
  (forall r, 0 < r <= 1 -> Un_cv (fun n => cat_objective prior (after (repeat r n)) rows) log_evidence).
Proof.
  intros d prior post ks rates Op Oq Hk Hr rows le best after.
  assert (Hd : (0 < d)%nat) by apply Op. assert (Hrow := unit_rows_ok d ks). fold rows in Hrow.
  assert (E := cat_evidence d Hd ks prior Op Hk). fold rows in E. change (ln _) with le in E.
  set (stats := colsum d (map cat_suff_stats rows)).
  set (fl := full dir_nat dir_from_nat d cat_suff_stats prior rows).
  assert (Ls : length stats = d) by (apply (conj_stats_len d cat_suff_stats (crow d)); auto using cat_f).
  assert (Of : dir_ok d fl) by (apply cat_fo; auto).
  assert (Hf : dir_nat fl = vadd (dir_nat prior) stats) by (apply cat_fn; auto).
  assert (Eb : best = fl).
  { unfold best, cat_train. rewrite (proj1 Op).
    apply (conj_full_step dir_nat dir_from_nat (dir_ok d) d cat_suff_stats (crow d) (cat_n d Hd) (cat_f d Hd)); auto. }
  assert (Ea : forall rs, after rs = steps dir_nat dir_from_nat prior stats rs post).
  { intros rs. unfold after, cat_trains, steps, cat_train. now rewrite (proj1 Op). }
  assert (Eo : forall q, dir_ok d q -> cat_objective prior q rows = elbo_of dir_nat dir_ess dir_log_norm prior stats q - 0).
  { intros q O. rewrite Rminus_0_r. unfold cat_objective, elbo_of, cat_llh, stats.
    rewrite <- (rsum_dot_colsum d cat_suff_stats rows (dir_ess q)); [reflexivity|now apply cat_e|].
    eapply Forall_impl; [|exact Hrow]. intros x Hx. cbv beta. now apply cat_f. }
  assert (Hrt : forall p, dir_ok d p -> dir_from_nat (dir_nat p) = p).
  { intros p O. apply dir_from_nat_dir_nat. now apply (dir_ne d Hd). }
  assert (Hmo : forall l p q, dir_ok d p -> dir_ok d q -> 0 <= l <= 1 ->
    dir_ok d (dir_from_nat (vadd (dir_nat p) (vscale l (vsub (dir_nat q) (dir_nat p)))))).
  { intros l p q O1 O2 Hl. destruct (dir_mix_spec d l p q O1 O2) as [A B].
    repeat apply conj; auto. apply Forall_pos_of_nth. intros k Hk'. rewrite A in Hk'. rewrite B by auto.
    destruct O1 as (P1 & P2 & P3), O2 as (Q1 & Q2 & Q3).
    apply convex_pos; auto; apply Forall_pos_nth; auto; lia. }
  assert (Hmn : forall l p q, dir_ok d p -> dir_ok d q -> 0 <= l <= 1 ->
    dir_nat (dir_from_nat (vadd (dir_nat p) (vscale l (vsub (dir_nat q) (dir_nat p))))) =
    vadd (dir_nat p) (vscale l (vsub (dir_nat q) (dir_nat p)))).
  { intros l p q O1 O2 Hl. apply dir_nat_dir_from_nat. intros X.
    assert (Y : length (vadd (dir_nat p) (vscale l (vsub (dir_nat q) (dir_nat p)))) = d)
      by (rewrite vlin_length; rewrite !(cat_n d Hd); auto).
    rewrite X in Y. simpl in Y. lia. }
  assert (A := steps_all dir_nat dir_ess dir_log_norm dir_from_nat (dir_ok d) d prior fl stats post
    (fun q => cat_objective prior q rows) 0 (cat_n d Hd) (cat_e d Hd) (dir_kl_nonneg d) Hrt Hmo Hmn Op Of Ls Hf Oq
    Eo rates Hr).
  fold fl in E. rewrite E, Rminus_0_r in A.
  clearbody after. apply functional_extensionality in Ea. subst after. rewrite Eb. exact A.
Qed.

(** ** Normal with diagonal covariance *)
Theorem C175_diagonal_normal : forall d prior post rows rates,
  ng_ok d prior -> ng_ok d post -> Forall (fun x => length x = d) rows -> rates_ok rates ->
  let start i := {| centre := fun _ => nth i (ng_mean prior) 0; weight := ng_scale prior;
                    shp := ng_shape prior; rte := nth i (ng_rates prior) 0 |} in
  let log_evidence := sumf (fun i => ln (evidence 1 (start i) (map (fun x _ => nth i x 0) rows))) (seq 0 d) in
  let best := diag_train 1 prior post rows in
  let after rs := diag_trains rs prior post rows in
  ng_ok d (after rates) /\
  0 <= log_evidence - diag_objective prior (after rates) rows <= left_over rates * (ng_kl post best + ng_kl best post) /\
  (forall r, 0 <= r <= 1 -> diag_objective prior (after rates) rows <= diag_objective prior (after (rates ++ [r])) rows) /\
  (forall r, 0 < r <= 1 -> Un_cv (fun n => diag_objective prior (after (repeat r n)) rows) log_evidence).
Proof.
  intros d prior post rows rates Op Oq Hrow Hr start le best after.
  assert (E := diag_evidence d rows prior Op Hrow). change (sumf _ _) with le in E.
  set (stats := colsum (2 * d + 2) (map nd_suff_stats rows)).
  set (fl := full ng_nat ng_from_nat (2 * d + 2) nd_suff_stats prior rows) in *.
  assert (Ls : length stats = (2 * d + 2)%nat) by (apply (conj_stats_len (2 * d + 2) nd_suff_stats (drow d)); auto using diag_f).
  assert (Of : ng_ok d fl) by (apply diag_fo; auto).
  assert (Hf : ng_nat fl = vadd (ng_nat prior) stats) by (apply diag_fn; auto).
  assert (Eb : best = fl).
  { unfold best, diag_train. rewrite (proj1 Op).
    apply (conj_full_step ng_nat ng_from_nat (ng_ok d) (2 * d + 2) nd_suff_stats (drow d) (diag_n d) (diag_f d)); auto. }
  assert (Ea : forall rs, after rs = steps ng_nat ng_from_nat prior stats rs post).
  { intros rs. unfold after, diag_trains, steps, diag_train. now rewrite (proj1 Op). }
  assert (Eo : forall q, ng_ok d q -> diag_objective prior q rows =
    elbo_of ng_nat ng_ess ng_log_norm prior stats q - 1/2 * INR d * ln (2 * PI) * INR (length rows)).
  { intros q O. unfold diag_objective, elbo_of, nd_llh, stats. rewrite (proj1 O), rsum_map_add.
    rewrite <- (rsum_dot_colsum (2 * d + 2) nd_suff_stats rows (ng_ess q)); [unfold ng_kl; lra|now apply diag_e|].
    eapply Forall_impl; [|exact Hrow]. intros x Hx. cbv beta. now apply (diag_f d). }
  assert (Hrt : forall p, ng_ok d p -> ng_from_nat (ng_nat p) = p).
  { intros p (A & B & C & _). apply (ng_roundtrip d); auto. lra. }
  assert (Hmo : forall l p q, ng_ok d p -> ng_ok d q -> 0 <= l <= 1 ->
    ng_ok d (ng_from_nat (vadd (ng_nat p) (vscale l (vsub (ng_nat q) (ng_nat p)))))) by (intros; apply ng_mix_ok; auto).
  assert (Hmn : forall l p q, ng_ok d p -> ng_ok d q -> 0 <= l <= 1 ->
    ng_nat (ng_from_nat (vadd (ng_nat p) (vscale l (vsub (ng_nat q) (ng_nat p))))) =
    vadd (ng_nat p) (vscale l (vsub (ng_nat q) (ng_nat p)))).
  { intros l p q P Q Hl. apply (ng_roundtrip' d); [rewrite vlin_length; rewrite !(diag_n d); auto|].
    rewrite vlin_nth by (rewrite !(diag_n d); auto; lia).
    destruct P as (A1 & A2 & A3 & A4 & A5), Q as (B1 & B2 & B3 & B4 & B5).
    assert (T := ng_nat_3 d p 0 A1 A2). assert (U := ng_nat_3 d q 0 B1 B2).
    rewrite Nat.add_0_r in T, U. rewrite T, U. cbn [nth].
    assert (X := convex_pos l _ _ Hl A3 B3). lra. }
  assert (A := steps_all ng_nat ng_ess ng_log_norm ng_from_nat (ng_ok d) (2 * d + 2) prior fl stats post
    (fun q => diag_objective prior q rows) _ (diag_n d) (diag_e d) (ng_kl_nonneg d) Hrt Hmo Hmn Op Of Ls Hf Oq Eo rates Hr).
  rewrite E in A.
  clearbody after. apply functional_extensionality in Ea. subst after. rewrite Eb. exact A.
Qed.

(** ** Normal with isotropic covariance *)
Theorem C175_isotropic_normal : forall d prior post rows rates,
  ig_ok d prior -> ig_ok d post -> Forall (fun x => length x = d) rows -> rates_ok rates ->
  let start := {| centre := fun i => nth i (ig_mean prior) 0; weight := ig_scale prior;
                  shp := ig_shape prior; rte := ig_rate prior |} in
  let log_evidence := ln (evidence d start (map (fun x i => nth i x 0) rows)) in
  let best := iso_train 1 prior post rows in
  let after rs := iso_trains rs prior post rows in
  ig_ok d (after rates) /\
  0 <= log_evidence - iso_objective prior (after rates) rows <= left_over rates * (ig_kl post best + ig_kl best post) /\
  (forall r, 0 <= r <= 1 -> iso_objective prior (after rates) rows <= iso_objective prior (after (rates ++ [r])) rows) /\
  (forall r, 0 < r <= 1 -> Un_cv (fun n => iso_objective prior (after (repeat r n)) rows) log_evidence).
Proof.
  intros d prior post rows rates Op Oq Hrow Hr start le best after.
  assert (E := iso_evidence d rows prior Op Hrow). change (ln (evidence _ _ _)) with le in E.
  set (stats := colsum (d + 3) (map in_suff_stats rows)).
  set (fl := full ig_nat ig_from_nat (d + 3) in_suff_stats prior rows) in *.
  assert (Ls : length stats = (d + 3)%nat) by (apply (conj_stats_len (d + 3) in_suff_stats (drow d)); auto using iso_f).
  assert (Of : ig_ok d fl) by (apply iso_fo; auto).
  assert (Hf : ig_nat fl = vadd (ig_nat prior) stats) by (apply iso_fn; auto).
  assert (Eb : best = fl).
  { unfold best, iso_train. rewrite (proj1 Op).
    apply (conj_full_step ig_nat ig_from_nat (ig_ok d) (d + 3) in_suff_stats (drow d) (iso_n d) (iso_f d)); auto. }
  assert (Ea : forall rs, after rs = steps ig_nat ig_from_nat prior stats rs post).
  { intros rs. unfold after, iso_trains, steps, iso_train. now rewrite (proj1 Op). }
  assert (Eo : forall q, ig_ok d q -> iso_objective prior q rows =
    elbo_of ig_nat ig_ess ig_log_norm prior stats q - 1/2 * INR d * ln (2 * PI) * INR (length rows)).
  { intros q O. unfold iso_objective, elbo_of, in_llh, stats. rewrite (proj1 O), rsum_map_add.
    rewrite <- (rsum_dot_colsum (d + 3) in_suff_stats rows (ig_ess q)); [unfold ig_kl; lra|now apply iso_e|].
    eapply Forall_impl; [|exact Hrow]. intros x Hx. cbv beta. now apply (iso_f d). }
  assert (Hrt : forall p, ig_ok d p -> ig_from_nat (ig_nat p) = p).
  { intros p (A & C & _). apply (ig_roundtrip d); auto. lra. }
  assert (Hmo : forall l p q, ig_ok d p -> ig_ok d q -> 0 <= l <= 1 ->
    ig_ok d (ig_from_nat (vadd (ig_nat p) (vscale l (vsub (ig_nat q) (ig_nat p)))))) by (intros; apply ig_mix_ok; auto).
  assert (Hmn : forall l p q, ig_ok d p -> ig_ok d q -> 0 <= l <= 1 ->
    ig_nat (ig_from_nat (vadd (ig_nat p) (vscale l (vsub (ig_nat q) (ig_nat p))))) =
    vadd (ig_nat p) (vscale l (vsub (ig_nat q) (ig_nat p)))).
  { intros l p q P Q Hl. apply (ig_roundtrip' d); [rewrite vlin_length; rewrite !(iso_n d); auto|].
    rewrite vlin_nth by (rewrite !(iso_n d); auto; lia).
    destruct P as (A1 & A3 & A4 & A5), Q as (B1 & B3 & B4 & B5).
    rewrite !(ig_nat_2 d) by auto. cbn [nth].
    assert (X := convex_pos l _ _ Hl A3 B3). lra. }
  assert (A := steps_all ig_nat ig_ess ig_log_norm ig_from_nat (ig_ok d) (d + 3) prior fl stats post
    (fun q => iso_objective prior q rows) _ (iso_n d) (iso_e d) (ig_kl_nonneg d) Hrt Hmo Hmn Op Of Ls Hf Oq Eo rates Hr).
  rewrite E in A.
  clearbody after. apply functional_extensionality in Ea. subst after. rewrite Eb. exact A.
Qed.

(** ** Normal with full covariance: the steps never fail; the limit is the bound
    of the full update, which is the highest value of all (C41) *)
Theorem C175_full_normal : forall D prior post data rates,
  nw_ok D prior -> nw_ok D post -> frames_of_dim D data -> nonneg_weights data -> rates_ok rates ->
  let stats := wstats (D + (D * D + 2)) nl_suff_stats data in
  exists q best b top k1 k2,
    full_trains rates prior post stats = Ok q /\ nw_ok D q /\
    nw_update 1 prior post stats = Ok best /\
    nw_elbo prior stats q = Ok b /\ nw_elbo prior stats best = Ok top /\
    nw_kl post best = Ok k1 /\ nw_kl best post = Ok k2 /\
    0 <= top - b <= left_over rates * (k1 + k2).
Proof.
  intros D prior post data rates Op Oq Hx Hw Hr stats.
  destruct (nw_full D prior data Op Hx Hw) as (fl & np & E & F1 & F2 & F3 & F4 & _).
  fold stats in F1, F3.
  assert (Ef := nw_update_full D prior post data Op Oq Hx np E). fold stats in Ef. rewrite F1 in Ef.
  set (nat_of := fun p => getl [] (nw_nat p)). set (ess := fun p => getl [] (nw_ess p)).
  set (lnorm := fun p => getl 0 (nw_log_norm p)). set (fromn := fun n => getl prior (nw_from_nat n)).
  assert (Kn : forall p, nw_ok D p -> nw_nat p = Ok (nat_of p) /\ length (nat_of p) = (D + (D * D + 2))%nat).
  { intros p O. destruct (nw_ok_npar D p O) as (n & P & En & _ & _ & Hn). unfold nat_of. rewrite En. simpl.
    split; auto. apply Hn. }
  assert (Ke : forall p, nw_ok D p -> nw_ess p = Ok (ess p) /\ length (ess p) = (D + (D * D + 2))%nat /\
                nw_log_norm p = Ok (lnorm p)).
  { intros p (O1 & O2 & O3 & O4 & O5). destruct (chol_complete D _ O3) as (L & _ & HL).
    destruct (nw_ess_epar D p L O1 O2 HL) as (e & Ee & He). unfold ess, lnorm.
    rewrite Ee, (nw_log_norm_value D p L) by auto. simpl. split; [auto|]. split; [apply He|auto]. }
  assert (Kk : forall p q, nw_ok D p -> nw_ok D q ->
    nw_kl p q = Ok (kl_div (nat_of p) (ess p) (nat_of q) (lnorm p) (lnorm q))).
  { intros p q O1 O2. unfold nw_kl. destruct (Kn p O1) as (-> & _), (Kn q O2) as (-> & _).
    destruct (Ke p O1) as (-> & _ & ->), (Ke q O2) as (_ & _ & ->). reflexivity. }
  assert (Kb : forall p, nw_ok D p -> nw_elbo prior stats p = Ok (elbo_of nat_of ess lnorm prior stats p)).
  { intros p O. unfold nw_elbo. destruct (Ke p O) as (-> & _). rewrite Kk by auto. reflexivity. }
  assert (Hn : forall p, nw_ok D p -> length (nat_of p) = (D + (D * D + 2))%nat) by (intros; now apply Kn).
  assert (He : forall p, nw_ok D p -> length (ess p) = (D + (D * D + 2))%nat) by (intros; now apply Ke).
  assert (Hkl : forall p q, nw_ok D p -> nw_ok D q -> 0 <= kl_div (nat_of p) (ess p) (nat_of q) (lnorm p) (lnorm q)).
  { intros p q O1 O2. destruct (nw_kl_nonneg D p q O1 O2) as (kl & E1 & E2). rewrite Kk in E1 by auto. congruence. }
  assert (Hm : forall l p q, nw_ok D p -> nw_ok D q -> 0 <= l <= 1 ->
    nw_from_nat (vadd (nat_of p) (vscale l (vsub (nat_of q) (nat_of p)))) =
      Ok (fromn (vadd (nat_of p) (vscale l (vsub (nat_of q) (nat_of p))))) /\
    nw_ok D (fromn (vadd (nat_of p) (vscale l (vsub (nat_of q) (nat_of p))))) /\
    nat_of (fromn (vadd (nat_of p) (vscale l (vsub (nat_of q) (nat_of p))))) =
      vadd (nat_of p) (vscale l (vsub (nat_of q) (nat_of p)))).
  { intros l p q O1 O2 Hll. destruct (nw_mix D l p q _ _ O1 O2 Hll (proj1 (Kn p O1)) (proj1 (Kn q O2))) as (r & R1 & R2 & R3).
    unfold fromn. rewrite R1. simpl. split; auto. split; auto. unfold nat_of at 1. rewrite R3. reflexivity. }
  assert (Hrt : forall p, nw_ok D p -> fromn (nat_of p) = p).
  { intros p O. unfold fromn. assert (O' := O). destruct O' as (O1 & O2 & _ & O4 & _).
    rewrite (nw_roundtrip D p (nat_of p)); auto; [lra|now apply Kn]. }
  assert (Hf : nat_of fl = vadd (nat_of prior) stats).
  { unfold nat_of. rewrite F3, E. reflexivity. }
  assert (Ls : length stats = (D + (D * D + 2))%nat) by (apply (nl_wstats D data Hx)).
  assert (Et : forall rs p, rates_ok rs -> nw_ok D p ->
    full_trains rs prior p stats = Ok (steps nat_of fromn prior stats rs p)).
  { induction rs as [|r rs IH]; intros p Hrs O; [reflexivity|]. inversion Hrs; subst.
    unfold full_trains. cbn [foldM steps fold_left].
    assert (U : nw_update r prior p stats = Ok (std_update nat_of fromn r prior p stats)).
    { unfold nw_update, std_update. destruct (Kn prior Op) as (-> & _), (Kn p O) as (-> & _). cbn [bindr].
      rewrite <- Hf. now apply Hm. }
    rewrite U. cbn [bindr]. apply IH; auto. unfold std_update. rewrite <- Hf. now apply Hm. }
  assert (A := steps_all nat_of ess lnorm fromn (nw_ok D) (D + (D * D + 2)) prior fl stats post
    (elbo_of nat_of ess lnorm prior stats) 0 Hn He Hkl Hrt
    (fun l p q O1 O2 Hl => proj1 (proj2 (Hm l p q O1 O2 Hl))) (fun l p q O1 O2 Hl => proj2 (proj2 (Hm l p q O1 O2 Hl)))
    Op F2 Ls Hf Oq (fun q _ => eq_sym (Rminus_0_r _)) rates Hr).
  destruct A as (A1 & A2 & _).
  exists (steps nat_of fromn prior stats rates post), fl. do 4 eexists.
  split; [now apply Et|]. split; [exact A1|]. split; [exact Ef|]. split; [now apply Kb|]. split; [now apply Kb|].
  split; [now apply Kk|]. split; [now apply Kk|].
  assert (T := bound_elbo_form nat_of ess lnorm (nw_ok D) (D + (D * D + 2)) Hn He prior fl stats Op F2 Ls Hf fl F2).
  rewrite T. rewrite (kl_self (D + (D * D + 2))) by auto. exact A2.
Qed.

(** Ten steps at rate 1/2 from (5, 3), after draws 0, 0, 1 from an urn with one
    ball of each of two colours. *)
Example C175_ex :
  let rows := [[1; 0]; [1; 0]; [0; 1]] in
  let J := dir_kl [5; 3] (cat_train 1 [1; 1] [5; 3] rows) + dir_kl (cat_train 1 [1; 1] [5; 3] rows) [5; 3] in
  0 <= ln (1 / 12) - cat_objective [1; 1] (cat_trains (repeat (1/2) 10) [1; 1] [5; 3] rows) rows <= J / 1024.
Proof.
  intros rows J.
  assert (O1 : dir_ok 2 [1; 1]) by (repeat split; auto; repeat constructor; lra).
  assert (O2 : dir_ok 2 [5; 3]) by (repeat split; auto; repeat constructor; lra).
  assert (Hk : Forall (fun k => (k < 2)%nat) [0; 0; 1]%nat) by (repeat constructor).
  destruct (C175_categorical 2 [1; 1] [5; 3] [0; 0; 1]%nat (repeat (1/2) 10) O1 O2 Hk) as (_ & E & _).
  { apply repeat_ok. lra. }
  cbn [map unit_row seq Nat.eqb] in E. fold rows in E. fold J in E.
  replace (urn_prob 2 (fun k => nth k [1; 1] 0) [0; 0; 1]%nat) with (1 / 12) in E
    by (unfold urn_prob, urn_total, urn_add, sumf; cbn; field).
  replace (left_over (repeat (1/2) 10) * J) with (J / 1024) in E by (cbn; field). exact E.
Qed.

Print Assumptions C175_categorical.
Print Assumptions C175_diagonal_normal.
Print Assumptions C175_isotropic_normal.
Print Assumptions C175_full_normal.

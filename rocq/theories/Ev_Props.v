From Coq Require Import Reals List Arith Lia Lra.
From Verif Require Import Prelude Vec Lgamma Gibbs Dist_Model Dist_Spec Dist_Proofs NG_Proofs KL_Proofs Dist_Props Sk_Props
  Ev_Model Ev_Spec Ev_Proofs.
Import ListNotations.
Local Open Scope R_scope.

(** ** C170: the objective of a single conjugate model is at most the exact
    log-evidence of the data and equals it after one full update, whatever the
    posterior was before. *)

Theorem C170_categorical : forall d prior post ks,
  dir_ok d prior -> dir_ok d post -> Forall (fun k => (k < d)%nat) ks ->
  let rows := map (unit_row d) ks in
  let log_evidence := ln (urn_prob d (fun j => nth j prior 0) ks) in
  cat_objective prior post rows <= log_evidence /\
  cat_objective prior (cat_train 1 prior post rows) rows = log_evidence.
Proof.
  intros d prior post ks Op Oq Hk rows le.
  assert (Hd : (0 < d)%nat) by apply Op. assert (Hr := unit_rows_ok d ks). fold rows in Hr.
  assert (E := cat_evidence d Hd ks prior Op Hk). fold rows in E. fold le in E. rewrite <- E.
  split.
  - apply (conj_obj_le dir_nat dir_ess dir_log_norm dir_from_nat (dir_ok d) d cat_suff_stats (crow d)
      (cat_n d Hd) (cat_e d Hd) (dir_kl_nonneg d) (cat_f d Hd) (cat_fo d Hd) (cat_fn d Hd)); auto.
  - unfold cat_train. rewrite (proj1 Op).
    rewrite (conj_full_step dir_nat dir_from_nat (dir_ok d) d cat_suff_stats (crow d) (cat_n d Hd) (cat_f d Hd)) by auto.
    apply (conj_obj_full dir_nat dir_ess dir_log_norm dir_from_nat (dir_ok d) d cat_suff_stats (crow d)
      (cat_n d Hd) (cat_e d Hd) (cat_f d Hd) (cat_fo d Hd) (cat_fn d Hd)); auto.
Qed.

Lemma rsum_map_add {A} (g : A -> R) c l : rsum (map (fun x => g x + c) l) = rsum (map g l) + c * INR (length l).
Proof.
  change (sumf (fun x => g x + c) l = sumf g l + c * INR (length l)).
  rewrite sumf_plus, sumf_const. ring.
Qed.

Theorem C170_diagonal_normal : forall d prior post rows,
  ng_ok d prior -> ng_ok d post -> Forall (fun x => length x = d) rows ->
  let start i := {| centre := fun _ => nth i (ng_mean prior) 0; weight := ng_scale prior;
                    shp := ng_shape prior; rte := nth i (ng_rates prior) 0 |} in
  let log_evidence := sumf (fun i => ln (evidence 1 (start i) (map (fun x _ => nth i x 0) rows))) (seq 0 d) in
  diag_objective prior post rows <= log_evidence /\
  diag_objective prior (diag_train 1 prior post rows) rows = log_evidence.
Proof.
  intros d prior post rows Op Oq Hr start le.
  assert (E := diag_evidence d rows prior Op Hr). change (sumf _ _) with le in E. rewrite <- E.
  assert (Eo : forall q, ng_ok d q -> diag_objective prior q rows =
    obj ng_nat ng_ess ng_log_norm nd_suff_stats prior q rows - 1/2 * INR d * ln (2 * PI) * INR (length rows)).
  { intros q (A & _). unfold diag_objective, obj, nd_llh, ng_kl. rewrite A, rsum_map_add. lra. }
  split.
  - rewrite Eo by auto.
    assert (L := conj_obj_le ng_nat ng_ess ng_log_norm ng_from_nat (ng_ok d) (2 * d + 2) nd_suff_stats (drow d)
      (diag_n d) (diag_e d) (ng_kl_nonneg d) (diag_f d) (diag_fo d) (diag_fn d) prior post rows Op Oq Hr). lra.
  - unfold diag_train. rewrite (proj1 Op).
    rewrite (conj_full_step ng_nat ng_from_nat (ng_ok d) (2 * d + 2) nd_suff_stats (drow d) (diag_n d) (diag_f d)) by auto.
    rewrite Eo by (apply diag_fo; auto).
    rewrite (conj_obj_full ng_nat ng_ess ng_log_norm ng_from_nat (ng_ok d) (2 * d + 2) nd_suff_stats (drow d)
      (diag_n d) (diag_e d) (diag_f d) (diag_fo d) (diag_fn d)) by auto. reflexivity.
Qed.

Theorem C170_isotropic_normal : forall d prior post rows,
  ig_ok d prior -> ig_ok d post -> Forall (fun x => length x = d) rows ->
  let start := {| centre := fun i => nth i (ig_mean prior) 0; weight := ig_scale prior;
                  shp := ig_shape prior; rte := ig_rate prior |} in
  let log_evidence := ln (evidence d start (map (fun x i => nth i x 0) rows)) in
  iso_objective prior post rows <= log_evidence /\
  iso_objective prior (iso_train 1 prior post rows) rows = log_evidence.
Proof.
  intros d prior post rows Op Oq Hr start le.
  assert (E := iso_evidence d rows prior Op Hr). change (ln (evidence _ _ _)) with le in E. rewrite <- E.
  assert (Eo : forall q, ig_ok d q -> iso_objective prior q rows =
    obj ig_nat ig_ess ig_log_norm in_suff_stats prior q rows - 1/2 * INR d * ln (2 * PI) * INR (length rows)).
  { intros q (A & _). unfold iso_objective, obj, in_llh, ig_kl. rewrite A, rsum_map_add. lra. }
  split.
  - rewrite Eo by auto.
    assert (L := conj_obj_le ig_nat ig_ess ig_log_norm ig_from_nat (ig_ok d) (d + 3) in_suff_stats (drow d)
      (iso_n d) (iso_e d) (ig_kl_nonneg d) (iso_f d) (iso_fo d) (iso_fn d) prior post rows Op Oq Hr). lra.
  - unfold iso_train. rewrite (proj1 Op).
    rewrite (conj_full_step ig_nat ig_from_nat (ig_ok d) (d + 3) in_suff_stats (drow d) (iso_n d) (iso_f d)) by auto.
    rewrite Eo by (apply iso_fo; auto).
    rewrite (conj_obj_full ig_nat ig_ess ig_log_norm ig_from_nat (ig_ok d) (d + 3) in_suff_stats (drow d)
      (iso_n d) (iso_e d) (iso_f d) (iso_fo d) (iso_fn d)) by auto. reflexivity.
Qed.

(** Draws 0, 0, 1 from an urn with one ball of each of two colours:
    1/2 * 2/3 * 1/4. *)
Example C170_ex_categorical :
  cat_objective [1; 1] (cat_train 1 [1; 1] [5; 3] [[1; 0]; [1; 0]; [0; 1]]) [[1; 0]; [1; 0]; [0; 1]] = ln (1 / 12).
Proof.
  assert (O1 : dir_ok 2 [1; 1]) by (repeat split; auto; repeat constructor; lra).
  assert (O2 : dir_ok 2 [5; 3]) by (repeat split; auto; repeat constructor; lra).
  assert (Hk : Forall (fun k => (k < 2)%nat) [0; 0; 1]%nat) by (repeat constructor).
  destruct (C170_categorical 2 [1; 1] [5; 3] [0; 0; 1]%nat O1 O2 Hk) as [_ E].
  cbn [map unit_row seq Nat.eqb] in E. etransitivity; [exact E|]. f_equal.
  unfold urn_prob, urn_total, urn_add, sumf. cbn. field.
Qed.

(** One frame in the plane: the density of Student's t is 1 / (16 pi) there. *)
Example C170_ex_isotropic :
  let prior := {| ig_mean := [0; 0]; ig_scale := 1; ig_shape := 1; ig_rate := 1 |} in
  iso_objective prior (iso_train 1 prior prior [[2; 0]]) [[2; 0]] = - ln (16 * PI).
Proof.
  intros prior.
  assert (O1 : ig_ok 2 prior) by (repeat split; cbn; auto; lra).
  destruct (C170_isotropic_normal 2 prior prior [[2; 0]] O1 O1 ltac:(auto)) as [_ E].
  etransitivity; [exact E|]. cbn [map evidence]. rewrite Rmult_1_r. unfold predictive, student_pdf, dist2, sumf.
  cbn. replace (INR 2) with 2 by (cbn; lra).
  replace ((2 * 1 + (1 + 1)) / 2) with 2 by lra. replace (2 * 1 / 2) with 1 by lra.
  rewrite lgamma_2, lgamma_1, exp_0. assert (HP := PI_RGT_0).
  replace (2 * 1 * PI * (1 / 1 * ((1 + 1) / 1))) with (4 * PI) by field.
  replace (1 + ((2 - 0) * ((2 - 0) * 1) + ((0 - 0) * ((0 - 0) * 1) + 0)) / (2 * 1 * (1 / 1 * ((1 + 1) / 1)))) with 2 by field.
  unfold Rpower. rewrite !ln_mult by (try apply Rmult_lt_0_compat; try apply exp_pos; lra).
  rewrite !ln_exp. replace (1 / 1) with 1 by field. rewrite ln_1.
  rewrite (ln_mult 16), (ln_mult 4) by lra.
  replace 16 with (4 * (2 * 2)) by lra. rewrite (ln_mult 4), (ln_mult 2) by lra. field.
Qed.

(** Two frames in one dimension; the two Gamma factors at 3/2 cancel. *)
Example C170_ex_diagonal :
  let prior := {| ng_mean := [0]; ng_scale := 1; ng_shape := 1; ng_rates := [1] |} in
  diag_objective prior (diag_train 1 prior prior [[2]; [1]]) [[2]; [1]] =
  - (1/2) * ln (4 * PI) - 3/2 * ln 2 - 1/2 * ln (6 * PI).
Proof.
  intros prior.
  assert (O1 : ng_ok 1 prior) by (repeat split; cbn; auto; try lra; repeat constructor; lra).
  destruct (C170_diagonal_normal 1 prior prior [[2]; [1]] O1 O1 ltac:(auto)) as [_ E].
  etransitivity; [exact E|]. cbn [seq]. rewrite sumf_cons, sumf_nil. cbn [map evidence].
  rewrite Rmult_1_r, Rplus_0_r. unfold learn, predictive, student_pdf, dist2, sumf. cbn.
  assert (HP := PI_RGT_0).
  replace ((2 * 1 + 1) / 2) with (3/2) by lra. replace (2 * 1 / 2) with 1 by lra.
  replace (2 * (1 + 1 / 2) / 2) with (3/2) by lra. replace ((2 * (1 + 1/2) + 1) / 2) with 2 by lra.
  rewrite lgamma_2, lgamma_1.
  replace (2 * 1 * PI * (1 / 1 * ((1 + 1) / 1))) with (4 * PI) by field.
  match goal with |- context [Rpower (2 * (1 + 1 / 2) * PI * ?t)] => replace (2 * (1 + 1 / 2) * PI * t) with (6 * PI) by field end.
  match goal with |- context [Rpower (1 + ?t / (2 * 1 * ?u))] => replace (1 + t / (2 * 1 * u)) with 2 by field end.
  match goal with |- context [Rpower (1 + ?t / (2 * (1 + 1 / 2) * ?u))] => replace (1 + t / (2 * (1 + 1 / 2) * u)) with 1 by field end.
  unfold Rpower, Rdiv. rewrite !ln_mult by (repeat apply Rmult_lt_0_compat; try apply exp_pos; try apply Rinv_0_lt_compat; try apply exp_pos; lra).
  rewrite !ln_Rinv by apply exp_pos. rewrite !ln_exp, ln_1.
  rewrite (ln_mult (exp 0 * _ * _)), (ln_mult (exp 0 * _)), (ln_mult (exp 0)) by
    (repeat apply Rmult_lt_0_compat; try apply exp_pos; apply Rinv_0_lt_compat, exp_pos).
  rewrite ln_Rinv by apply exp_pos. rewrite !ln_exp. field.
Qed.

Print Assumptions C170_categorical.
Print Assumptions C170_diagonal_normal.
Print Assumptions C170_isotropic_normal.

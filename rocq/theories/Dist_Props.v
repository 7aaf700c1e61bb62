(** Properties of the exponential family distributions and of their conjugate
    likelihood functions (C33-C37, C39-C42, C85-C89). *)
From Coq Require Import Reals List Arith Bool Lia Lra.
From Verif Require Import Prelude Vec Gibbs Lgamma Dist_Model Dist_Spec Dist_Proofs NG_Proofs KL_Proofs Llh_Proofs.
Import ListNotations.
Local Open Scope R_scope.

Ltac vec_calc := unfold vadd, vsub, vscale, vmul; cbn [map map2 nth app rsum length firstn skipn removelast last fold_right].

Lemma pair_eq {A B} (a a' : A) (b b' : B) : a = a' -> b = b' -> (a, b) = (a', b').
Proof. intros -> ->. reflexivity. Qed.

Ltac leq := repeat match goal with
  | |- Build_gamma_par _ _ = _ => apply (f_equal2 Build_gamma_par)
  | |- Build_ng_par _ _ _ _ = _ => apply (f_equal4 Build_ng_par)
  | |- Build_ing_par _ _ _ _ = _ => apply (f_equal4 Build_ing_par)
  | |- Build_ndc_par _ _ = _ => apply (f_equal2 Build_ndc_par)
  | |- _ :: _ = _ :: _ => apply (f_equal2 (@cons R))
  | |- [] = [] => reflexivity end.

(** ** C33: Dirichlet *)
Theorem C33_roundtrip : forall a, a <> [] ->
  dir_from_nat (dir_nat a) = a /\ dir_nat (dir_from_nat a) = a.
Proof. intros a H. split; [now apply dir_from_nat_dir_nat|now apply dir_nat_dir_from_nat]. Qed.

Example C33_roundtrip_ex : dir_nat [3; 2; 5] = [2; 1; 7] /\ dir_from_nat [2; 1; 7] = [3; 2; 5].
Proof. split; unfold dir_nat, dir_from_nat, set_last; vec_calc; leq; try lra; try (field; lra). Qed.

(** After a full step: prior plus the (soft) counts; after any step: the convex
    combination of this and of the current concentrations. *)
Theorem C33_count_conjugacy : forall d lrate prior post data k,
  (k < d)%nat -> length prior = d -> length post = d -> frames_of_dim d data ->
  let upd l := std_update dir_nat dir_from_nat l prior post (wstats d cat_suff_stats data) in
  length (upd lrate) = d /\
  nth k (upd 1) 0 = nth k prior 0 + Sw k data /\
  nth k (upd lrate) 0 = (1 - lrate) * nth k post 0 + lrate * (nth k prior 0 + Sw k data).
Proof.
  intros d lrate prior post data k Hk Hp Hq Hx upd.
  destruct (dir_update_spec d 1 prior post data ltac:(lia) Hp Hq Hx) as [A1 B1].
  destruct (dir_update_spec d lrate prior post data ltac:(lia) Hp Hq Hx) as [A2 B2].
  fold (upd 1) in A1, B1. fold (upd lrate) in A2, B2.
  repeat apply conj; auto. rewrite B1 by auto. ring.
Qed.

(** Concentrations stay positive along every training history. *)
Theorem C33_positive_forever : forall d prior post,
  dir_ok d prior ->
  reach dir_nat dir_from_nat (dir_ok d)
    (fun data => frames_of_dim d data /\ nonneg_weights data /\
                 Forall (fun gx => Forall (fun v => 0 <= v) (snd gx)) data)
    (wstats d cat_suff_stats) prior post ->
  dir_ok d post.
Proof.
  intros d prior post Hp Hr. induction Hr as [p H|p lrate data Hr IH Hl (Hx & Hw & Hv)]; [exact H|].
  destruct Hp as (P1 & P2 & P3), IH as (Q1 & _ & Q3).
  destruct (dir_update_spec d lrate prior p data P2 P1 Q1 Hx) as [A B].
  repeat apply conj; auto. apply Forall_pos_of_nth. intros k Hk. rewrite A in Hk. rewrite B by auto.
  apply convex_pos; auto; [apply Forall_pos_nth; auto; lia|].
  assert (X := Forall_pos_nth _ k P3 ltac:(lia)).
  assert (Y : 0 <= Sw k data).
  { apply sumf_nonneg. intros gx Hin. unfold nonneg_weights in Hw. rewrite Forall_forall in Hw, Hv.
    apply Rmult_le_pos; [apply (Hw gx Hin)|]. specialize (Hv gx Hin). rewrite Forall_forall in Hv.
    apply Hv, nth_In. unfold frames_of_dim in Hx. rewrite Forall_forall in Hx. rewrite (Hx gx Hin). exact Hk. }
  lra.
Qed.

Theorem C33_mean_is_a_distribution : forall d a, dir_ok d a ->
  Forall (fun x => 0 < x) (dir_mean a) /\ rsum (dir_mean a) = 1.
Proof.
  intros d a (A1 & A2 & A3).
  assert (Hne : a <> []) by (destruct a; simpl in *; [lia|congruence]).
  assert (S := rsum_pos_ne a Hne A3). split.
  - apply Forall_map. apply Forall_forall. intros x Hx. rewrite Forall_forall in A3.
    apply Rdiv_lt_0_compat; auto.
  - unfold dir_mean. unfold Rdiv. rewrite (map_rsum_scal (fun x => x)), map_id. field. lra.
Qed.

Example C33_ex :
  let upd l := std_update dir_nat dir_from_nat l [1; 1; 1] [4; 4; 4]
     (wstats 3 cat_suff_stats [(1, [1; 0; 0]); (1, [0; 0; 1]); (2, [1/2; 0; 1/2])]) in
  upd 1 = [3; 1; 3] /\ upd (1/2) = [7/2; 5/2; 7/2].
Proof.
  unfold std_update, wstats, colsum, cat_suff_stats, dir_nat, dir_from_nat, set_last, vzeros. vec_calc.
  unfold colsum, vadd. cbn. split; leq; try lra; try (field; lra).
Qed.

(** ** C34: categorical likelihood *)
Theorem C34_normalised_partial : forall d r,
  length r = d -> (0 < d)%nat -> ln (rsum (map exp r)) <= 20 ->
  let w := cat_params_from_pdfvec (cat_pdfvec_from_rvec r) in
  w = softmax0 r /\ rsum w = 1 /\ Forall (fun x => 0 < x) w.
Proof.
  intros d r Hd H0 Hl w. assert (Hr : r <> []) by (destruct r; simpl in *; [lia|congruence]).
  assert (P := exp_sum_pos r Hr).
  assert (E := cat_params_softmax r Hr Hl). fold w in E. repeat apply conj; auto.
  - unfold w. rewrite cat_params_sum, cat_log_norm_ne, softplus_exact by auto.
    rewrite exp_Ropp. rewrite (exp_ln (rsum (map exp r))) by auto. rewrite exp_ln by lra. field. lra.
  - rewrite E. unfold softmax0. apply Forall_app. split.
    + apply Forall_map, Forall_forall. intros x _. apply Rdiv_lt_0_compat; [apply exp_pos|lra].
    + constructor; [apply Rdiv_lt_0_compat; lra|constructor].
Qed.

(** torch's softplus is the identity above 20, so that the weights sum to more
    than one when the log-sum-exp of the vector exceeds 20. *)
Theorem C34_refuted : exists r, length r = 1%nat /\
  1 < rsum (cat_params_from_pdfvec (cat_pdfvec_from_rvec r)).
Proof.
  exists [21]. split; [reflexivity|].
  rewrite cat_params_overflow_sum; [|discriminate|].
  - assert (P := exp_sum_pos [21] ltac:(discriminate)). assert (0 < / rsum (map exp [21])) by (now apply Rinv_0_lt_compat). lra.
  - simpl. rewrite Rplus_0_r, ln_exp. lra.
Qed.

(** How far from one: less than 2.1e-9. *)
Theorem C34_excess_bound_partial : forall r, r <> [] ->
  1 <= rsum (cat_params_from_pdfvec (cat_pdfvec_from_rvec r)) <= 1 + exp (-20).
Proof.
  intros r Hr. assert (P := exp_sum_pos r Hr).
  destruct (Rle_lt_dec (ln (rsum (map exp r))) 20) as [H|H].
  - destruct (C34_normalised_partial (length r) r eq_refl) as (_ & E & _); auto.
    { destruct r; simpl; [congruence|lia]. }
    rewrite E. assert (X := exp_pos (-20)). lra.
  - rewrite cat_params_overflow_sum by auto.
    assert (0 < / rsum (map exp r)) by (now apply Rinv_0_lt_compat).
    assert (/ rsum (map exp r) <= exp (-20)).
    { replace (-20) with (- (20)) by lra. rewrite exp_Ropp. apply Rinv_le_contravar; [apply exp_pos|].
      rewrite <- (exp_ln (rsum (map exp r))) by auto. apply Rlt_le, exp_increasing, H. }
    lra.
Qed.

(** The likelihood of a one-hot vector is the log of the weight, always. *)
Theorem C34_likelihood_is_log_weight : forall d r k, length r = pred d -> (k < d)%nat ->
  cat_llh (cat_pdfvec_from_rvec r) (cat_suff_stats (unit_row d k)) =
  ln (nth k (cat_params_from_pdfvec (cat_pdfvec_from_rvec r)) 0).
Proof. exact onehot_cat_llh. Qed.

Example C34_ex : cat_params_from_pdfvec (cat_pdfvec_from_rvec [0; 0]) = [1/3; 1/3; 1/3].
Proof.
  assert (H3 : ln (rsum (map exp [0; 0])) <= 20).
  { simpl. rewrite exp_0. assert (L := ln_le_sub1 (1 + (1 + 0)) ltac:(lra)). lra. }
  destruct (C34_normalised_partial 2 [0; 0] eq_refl ltac:(lia) H3) as (E & _).
  rewrite E. unfold softmax0. simpl. rewrite exp_0. leq; try lra; try (field; lra).
Qed.

(** ** C35: Gamma *)
Theorem C35_roundtrip_partial : forall d p n,
  length (g_shape p) = d -> length (g_rate p) = d -> length n = (2 * d)%nat ->
  gamma_from_nat (gamma_nat p) = p /\ gamma_nat (gamma_from_nat n) = n.
Proof. intros d p n H1 H2 H3. split; [eapply gamma_roundtrip; eauto|eapply gamma_roundtrip'; eauto]. Qed.

(** Exact update: the rates decrease by the first statistics, the shapes grow by the second. *)
Theorem C35_update_partial : forall d lrate prior post stats k,
  length (g_shape prior) = d -> length (g_rate prior) = d ->
  length (g_shape post) = d -> length (g_rate post) = d -> length stats = (2 * d)%nat -> (k < d)%nat ->
  let q := std_update gamma_nat gamma_from_nat lrate prior post stats in
  nth k (g_rate q) 0 =
     (1 - lrate) * nth k (g_rate post) 0 + lrate * (nth k (g_rate prior) 0 - nth k stats 0) /\
  nth k (g_shape q) 0 =
     (1 - lrate) * nth k (g_shape post) 0 + lrate * (nth k (g_shape prior) 0 + nth (d + k) stats 0).
Proof.
  intros d lrate prior post stats k P1 P2 Q1 Q2 Hs Hk q.
  destruct (gamma_step_spec d lrate prior post stats P1 P2 Q1 Q2 Hs) as (_ & _ & A & B).
  split; [apply A|apply B]; auto.
Qed.

(** The likelihood function is off by 2 * rate * x (the sign of the first
    statistic is wrong): exactly ... *)
Theorem C35_likelihood_value_partial : forall d r x,
  length r = (2 * d)%nat -> length x = d -> Forall (fun v => 0 < v) x ->
  let a i := exp (gamma_eps + nth i r 0) in
  let b i := exp (gamma_eps + nth (d + i) r 0) in
  gamma_llh (gamma_pdfvec_from_rvec r) (gamma_suff_stats x) =
  sumf (fun i => ln (gamma_pdf (nth i x 0) (a i) (b i)) + 2 * (b i * nth i x 0)) (seq 0 d).
Proof. exact gamma_llh_value. Qed.

(** ... so it is never the Gamma log-density. *)
Theorem C35_likelihood_refuted : forall d r x,
  (0 < d)%nat -> length r = (2 * d)%nat -> length x = d -> Forall (fun v => 0 < v) x ->
  let a i := exp (gamma_eps + nth i r 0) in
  let b i := exp (gamma_eps + nth (d + i) r 0) in
  gamma_llh (gamma_pdfvec_from_rvec r) (gamma_suff_stats x) <>
  sumf (fun i => ln (gamma_pdf (nth i x 0) (a i) (b i))) (seq 0 d).
Proof.
  intros d r x Hd Hr Hx Hp a b. rewrite (gamma_llh_value d) by auto. fold a b.
  rewrite (sumf_plus (fun i => ln (gamma_pdf (nth i x 0) (a i) (b i))) (fun i => 2 * (b i * nth i x 0))).
  assert (0 < sumf (fun i => 2 * (b i * nth i x 0)) (seq 0 d)).
  { assert (P : forall i, (i < d)%nat -> 0 < 2 * (b i * nth i x 0)).
    { intros i Hi. assert (0 < b i * nth i x 0); [|lra].
      apply Rmult_lt_0_compat; [apply exp_pos|apply Forall_pos_nth; auto; lia]. }
    apply (sumf_pos _ _ 0%nat); [|apply in_seq; lia|apply P; lia].
    intros i Hi. apply in_seq in Hi. apply Rlt_le, P. lia. }
  lra.
Qed.

Example C35_ex : gamma_nat {| g_shape := [2; 3]; g_rate := [5; 7] |} = [-5; -7; 1; 2] /\
  std_update gamma_nat gamma_from_nat 1 {| g_shape := [1]; g_rate := [1] |}
    {| g_shape := [9]; g_rate := [9] |} [-3; 4] = {| g_shape := [5]; g_rate := [4] |}.
Proof.
  split; unfold std_update, gamma_from_nat, gamma_nat; simpl; leq; try lra; try (field; lra).
Qed.

(** ** C36: NormalGamma *)
Theorem C36_roundtrip : forall d p n,
  length (ng_mean p) = d -> length (ng_rates p) = d -> ng_scale p <> 0 ->
  length n = (2 * d + 2)%nat -> nth (2 * d) n 0 <> 0 ->
  ng_from_nat (ng_nat p) = p /\ ng_nat (ng_from_nat n) = n.
Proof. intros d p n H1 H2 H3 H4 H5. split; [eapply ng_roundtrip; eauto|eapply ng_roundtrip'; eauto]. Qed.

Theorem C36_textbook_posterior : forall d prior post data,
  length (ng_mean prior) = d -> length (ng_rates prior) = d ->
  length (ng_mean post) = d -> length (ng_rates post) = d ->
  frames_of_dim d data -> 0 < ng_scale prior + Nw data ->
  let q := std_update ng_nat ng_from_nat 1 prior post (wstats (2 * d + 2) nd_suff_stats data) in
  length (ng_mean q) = d /\ length (ng_rates q) = d /\
  ng_scale q = ng_scale prior + Nw data /\ ng_shape q = ng_shape prior + Nw data / 2 /\
  (forall i, (i < d)%nat ->
     nth i (ng_mean q) 0 =
     (ng_scale prior * nth i (ng_mean prior) 0 + Sw i data) / (ng_scale prior + Nw data)) /\
  (forall i, (i < d)%nat ->
     nth i (ng_rates q) 0 = nth i (ng_rates prior) 0
       + 1/2 * Dev i (nth i (ng_mean q) 0) data
       + 1/2 * ng_scale prior * (nth i (ng_mean prior) 0 - nth i (ng_mean q) 0) ^ 2) /\
  (* the same with the empirical mean *)
  (Nw data <> 0 -> forall i, (i < d)%nat ->
     let xbar := Sw i data / Nw data in
     nth i (ng_rates q) 0 = nth i (ng_rates prior) 0 + 1/2 * Dev i xbar data
       + 1/2 * (ng_scale prior * Nw data / (ng_scale prior + Nw data)) * (xbar - nth i (ng_mean prior) 0) ^ 2).
Proof.
  intros d prior post data P1 P2 Q1 Q2 Hx Hk q.
  destruct (ng_full_step d prior post data P1 P2 Q1 Q2 Hx Hk) as (A & B & C & D & E & F).
  fold q in A, B, C, D, E, F. repeat apply conj; auto.
  intros Hn i Hi xbar. rewrite F, E by auto. rewrite !Dev_expand. unfold xbar. field. lra.
Qed.

Theorem C36_positive_forever : forall d prior post,
  ng_ok d prior ->
  reach ng_nat ng_from_nat (ng_ok d) (fun data => frames_of_dim d data /\ nonneg_weights data)
    (wstats (2 * d + 2) nd_suff_stats) prior post ->
  ng_ok d post.
Proof.
  intros d prior post Hp Hr. induction Hr as [p H|p lrate data Hr IH Hl (Hx & Hw)]; [exact H|].
  apply ng_step_ok; auto.
Qed.

Definition ex_ng0 : ng_par := {| ng_mean := [0]; ng_scale := 1; ng_shape := 1; ng_rates := [1] |}.

Example C36_ex :
  ng_nat {| ng_mean := [3; -1]; ng_scale := 2; ng_shape := 4; ng_rates := [1; 5] |} = [6; -2; -10; -6; -1; 7/2] /\
  let q := std_update ng_nat ng_from_nat 1 ex_ng0 ex_ng0
             (wstats 4 nd_suff_stats [(1, [2]); (1, [4]); (1, [6])]) in
  q = {| ng_mean := [3]; ng_scale := 4; ng_shape := 5/2; ng_rates := [11] |}.
Proof.
  split; [unfold ng_nat; simpl; leq; try lra; try (field; lra)|].
  unfold ex_ng0, std_update, wstats, colsum, nd_suff_stats, ng_nat, ng_from_nat, slice, from_end, vzeros.
  simpl. leq; try lra; try (field; lra).
Qed.

(** ** C37: isotropic NormalGamma *)
Theorem C37_roundtrip : forall d p n,
  length (ig_mean p) = d -> ig_scale p <> 0 -> length n = (d + 3)%nat -> nth (d + 1) n 0 <> 0 ->
  ig_from_nat (ig_nat p) = p /\ ig_nat (ig_from_nat n) = n.
Proof. intros d p n H1 H2 H3 H4. split; [eapply ig_roundtrip; eauto|eapply ig_roundtrip'; eauto]. Qed.

Theorem C37_textbook_posterior : forall d prior post data,
  length (ig_mean prior) = d -> length (ig_mean post) = d ->
  frames_of_dim d data -> 0 < ig_scale prior + Nw data ->
  let q := std_update ig_nat ig_from_nat 1 prior post (wstats (d + 3) in_suff_stats data) in
  length (ig_mean q) = d /\
  ig_scale q = ig_scale prior + Nw data /\ ig_shape q = ig_shape prior + INR d * Nw data / 2 /\
  (forall i, (i < d)%nat ->
     nth i (ig_mean q) 0 =
     (ig_scale prior * nth i (ig_mean prior) 0 + Sw i data) / (ig_scale prior + Nw data)) /\
  ig_rate q = ig_rate prior
     + 1/2 * sumf (fun i => Dev i (nth i (ig_mean q) 0) data) (seq 0 d)
     + 1/2 * ig_scale prior
       * sumf (fun i => (nth i (ig_mean prior) 0 - nth i (ig_mean q) 0) ^ 2) (seq 0 d).
Proof. intros d prior post data P1 Q1 Hx Hk. exact (ig_full_step d prior post data P1 Q1 Hx Hk). Qed.

Theorem C37_positive_forever : forall d prior post,
  ig_ok d prior ->
  reach ig_nat ig_from_nat (ig_ok d) (fun data => frames_of_dim d data /\ nonneg_weights data)
    (wstats (d + 3) in_suff_stats) prior post ->
  ig_ok d post.
Proof.
  intros d prior post Hp Hr. induction Hr as [p H|p lrate data Hr IH Hl (Hx & Hw)]; [exact H|].
  apply ig_step_ok; auto.
Qed.

Example C37_ex :
  let p := {| ig_mean := [0; 0]; ig_scale := 1; ig_shape := 1; ig_rate := 1 |} in
  std_update ig_nat ig_from_nat 1 p p (wstats 5 in_suff_stats [(1, [2; 0]); (1, [4; 3])]) =
  {| ig_mean := [2; 1]; ig_scale := 3; ig_shape := 3; ig_rate := 8 |}.
Proof.
  unfold std_update, wstats, colsum, in_suff_stats, ig_nat, ig_from_nat, from_end, vzeros, sqnorm.
  simpl. leq; try lra; try (field; lra).
Qed.

(** ** C39: diagonal normal *)

(** natural_parameters returns the precision where from_natural_parameters
    expects minus half the precision: variances come back negative. *)
Theorem C39_refuted : forall d p, ndc_ok d p -> (0 < d)%nat ->
  let q := ndc_from_nat (ndc_nat p) in
  nc_cov q = map (fun s => - s / 2) (nc_cov p) /\
  nc_mean q = map (fun m => - m / 2) (nc_mean p) /\ q <> p.
Proof.
  intros d p (P1 & P2 & P3) Hd q.
  assert (Ld : (length (ndc_nat p) / 2)%nat = d).
  { unfold ndc_nat. rewrite app_length, map2_length, map_length, P1, P2, Nat.min_id.
    replace (d + d)%nat with (d * 2)%nat by lia. apply Nat.div_mul. lia. }
  assert (L1 : length (ndc_nat p) = (2 * d)%nat).
  { unfold ndc_nat. rewrite app_length, map2_length, map_length. lia. }
  assert (Ls : length (slice d (2 * d) (ndc_nat p)) = d) by (rewrite slice_length; lia).
  assert (Es : forall k, (k < d)%nat -> nth k (slice d (2 * d) (ndc_nat p)) 0 = 1 / nth k (nc_cov p) 0).
  { intros k Hk. rewrite slice_nth by lia. unfold ndc_nat. rewrite nth_app_r by (rewrite map2_length; lia).
    rewrite map_nth_R by lia. reflexivity. }
  assert (Ec : nc_cov q = map (fun s => - s / 2) (nc_cov p)).
  { unfold q, ndc_from_nat. rewrite Ld. cbn [nc_cov]. apply vec_ext; [rewrite !map_length; lia|].
    intros k Hk. rewrite map_length, Ls in Hk. rewrite !map_nth_R by lia. rewrite Es by auto.
    assert (X := Forall_pos_nth _ k P3 ltac:(lia)). field. lra. }
  assert (Em : nc_mean q = map (fun m => - m / 2) (nc_mean p)).
  { unfold q, ndc_from_nat. rewrite Ld. cbn [nc_mean].
    assert (Lf : length (firstn d (ndc_nat p)) = d) by (rewrite firstn_length; lia).
    apply vec_ext; [rewrite map2_length, !map_length; lia|].
    intros k Hk. rewrite map2_length, map_length, Ls, Lf, Nat.min_id in Hk.
    rewrite map2_nth_R by (rewrite ?map_length; lia). rewrite !map_nth_R by lia. rewrite Es by auto.
    rewrite firstn_nth_lt by auto. unfold ndc_nat. rewrite nth_app_l by (rewrite map2_length; lia).
    rewrite map2_nth_R by lia.
    assert (X := Forall_pos_nth _ k P3 ltac:(lia)). field. lra. }
  repeat apply conj; auto. intros E.
  assert (X := Forall_pos_nth _ 0%nat P3 ltac:(lia)).
  assert (Y : nth 0 (nc_cov q) 0 = nth 0 (nc_cov p) 0) by (rewrite E; reflexivity).
  rewrite Ec, map_nth_R in Y by lia. lra.
Qed.

(** from_natural_parameters does invert the documented natural parameters
    (mean/variance, -1/2 precision). *)
Theorem C39_documented_form_partial : forall d p, ndc_ok d p ->
  ndc_from_nat (map2 (fun m s => m / s) (nc_mean p) (nc_cov p) ++ map (fun s => - (1/2) * (1 / s)) (nc_cov p)) = p.
Proof.
  intros d p (P1 & P2 & P3).
  set (n := _ ++ _).
  assert (Ln : length n = (d + d)%nat) by (unfold n; rewrite app_length, map2_length, map_length; lia).
  unfold ndc_from_nat. rewrite Ln. replace (d + d)%nat with (d * 2)%nat by lia. rewrite Nat.div_mul by lia.
  assert (Ls : length (slice d (2 * d) n) = d) by (rewrite slice_length; lia).
  assert (Lf : length (firstn d n) = d) by (rewrite firstn_length; lia).
  assert (Es : forall k, (k < d)%nat -> nth k (slice d (2 * d) n) 0 = - (1/2) * (1 / nth k (nc_cov p) 0)).
  { intros k Hk. rewrite slice_nth by lia. unfold n. rewrite nth_app_r by (rewrite map2_length; lia).
    rewrite map_nth_R by lia. reflexivity. }
  assert (E : {| nc_mean := nc_mean p; nc_cov := nc_cov p |} = p) by (destruct p; reflexivity).
  rewrite <- E at 1. f_equal.
  - apply vec_ext; [rewrite map2_length, map_length; lia|].
    intros k Hk. rewrite map2_length, map_length, Ls, Lf, Nat.min_id in Hk.
    rewrite map2_nth_R by (rewrite ?map_length; lia). rewrite map_nth_R by lia. rewrite Es by auto.
    rewrite firstn_nth_lt by auto. unfold n. rewrite nth_app_l by (rewrite map2_length; lia).
    rewrite map2_nth_R by lia. assert (X := Forall_pos_nth _ k P3 ltac:(lia)). field. lra.
  - apply vec_ext; [rewrite map_length; lia|]. intros k Hk. rewrite map_length, Ls in Hk.
    rewrite map_nth_R by lia. rewrite Es by auto.
    assert (X := Forall_pos_nth _ k P3 ltac:(lia)). field. lra.
Qed.

Example C39_ex : ndc_from_nat (ndc_nat {| nc_mean := [4]; nc_cov := [2] |}) = {| nc_mean := [-2]; nc_cov := [-1] |}.
Proof. unfold ndc_from_nat, ndc_nat, slice. simpl. leq; lra. Qed.

(** ** C40: KL divergences *)
Theorem C40_dirichlet : forall d a b, dir_ok d a -> dir_ok d b -> 0 <= dir_kl a b /\ dir_kl a a = 0.
Proof.
  intros d a b Ha Hb. split; [eapply dir_kl_nonneg; eauto|]. destruct Ha as (A1 & A2 & A3).
  assert (Hne : a <> []) by (destruct a; simpl in *; [lia|congruence]).
  apply (kl_self d); [rewrite dir_nat_length|rewrite dir_ess_length]; auto.
Qed.

Theorem C40_gamma : forall d p q, gamma_ok d p -> gamma_ok d q -> 0 <= gamma_kl p q /\ gamma_kl p p = 0.
Proof.
  intros d p q Hp Hq. split; [eapply gamma_kl_nonneg; eauto|]. destruct Hp as (P1 & P2 & P3 & P4).
  apply (kl_self (2 * d)); [apply gamma_nat_length|apply gamma_ess_length]; auto.
Qed.

Theorem C40_normal_gamma : forall d p q, ng_ok d p -> ng_ok d q -> 0 <= ng_kl p q /\ ng_kl p p = 0.
Proof.
  intros d p q Hp Hq. split; [eapply ng_kl_nonneg; eauto|]. destruct Hp as (P1 & P2 & P3 & P4 & P5).
  apply (kl_self (2 * d + 2)); [apply ng_nat_length; auto|rewrite (ng_ess_length d); auto; lia].
Qed.

Theorem C40_isotropic_normal_gamma : forall d p q, ig_ok d p -> ig_ok d q -> 0 <= ig_kl p q /\ ig_kl p p = 0.
Proof.
  intros d p q Hp Hq. split; [eapply ig_kl_nonneg; eauto|]. destruct Hp as (P1 & P3 & P4 & P5).
  apply (kl_self (d + 3)); [rewrite ig_nat_length, P1|rewrite ig_ess_length, P1]; reflexivity.
Qed.

Theorem C40_diagonal_normal : forall d p q, ndc_ok d p -> ndc_ok d q -> 0 <= ndc_kl p q /\ ndc_kl p p = 0.
Proof.
  intros d p q Hp Hq. split; [eapply ndc_kl_nonneg; eauto|]. rewrite (ndc_kl_sum d) by auto.
  destruct Hp as (P1 & P2 & P3). apply sumf_zero. intros i Hi. apply in_seq in Hi.
  assert (X := Forall_pos_nth _ i P3 ltac:(lia)). field. lra.
Qed.

(** The values are the textbook ones (NormalGamma and diagonal normal). *)
Theorem C40_normal_gamma_value : forall d p q, ng_ok d p -> ng_ok d q ->
  ng_kl p q = sumf (fun i =>
    let a := ng_shape p in let b := nth i (ng_rates p) 0 in
    let a' := ng_shape q in let b' := nth i (ng_rates q) 0 in
    (* KL between the Gamma marginals *)
    ((a - a') * digamma a - lgamma a + lgamma a' + a' * (ln b - ln b') + a * (b' - b) / b)
    (* expected KL between the conditional normals *)
    + 1/2 * (ng_scale q * (a / b) * (nth i (ng_mean p) 0 - nth i (ng_mean q) 0) ^ 2
             + ng_scale q / ng_scale p - 1 - ln (ng_scale q / ng_scale p))) (seq 0 d).
Proof.
  intros d p q Hp Hq. rewrite (ng_kl_sum d) by auto.
  destruct Hp as (P1 & P2 & P3 & P4 & P5), Hq as (Q1 & Q2 & Q3 & Q4 & Q5).
  apply sumf_ext. intros i Hi. apply in_seq in Hi. cbv zeta. unfold ng_kl_term, gk.
  assert (X := Forall_pos_nth _ i P5 ltac:(lia)). rewrite ln_div by auto. field. lra.
Qed.

Theorem C40_diagonal_normal_value : forall d p q, ndc_ok d p -> ndc_ok d q ->
  ndc_kl p q = sumf (fun i => 1/2 * ((nth i (nc_mean p) 0 - nth i (nc_mean q) 0) ^ 2 / nth i (nc_cov q) 0
     + nth i (nc_cov p) 0 / nth i (nc_cov q) 0 - 1 - ln (nth i (nc_cov p) 0 / nth i (nc_cov q) 0))) (seq 0 d).
Proof.
  intros d p q Hp Hq. rewrite (ndc_kl_sum d) by auto.
  destruct Hp as (P1 & P2 & P3), Hq as (Q1 & Q2 & Q3).
  apply sumf_ext. intros i Hi. apply in_seq in Hi.
  assert (X := Forall_pos_nth _ i P3 ltac:(lia)). assert (Y := Forall_pos_nth _ i Q3 ltac:(lia)).
  rewrite ln_div by auto. lra.
Qed.

Example C40_ex : dir_kl [1; 1] [2; 1] = 1 - ln 2 /\ 0 < dir_kl [1; 1] [2; 1].
Proof.
  assert (E : dir_kl [1; 1] [2; 1] = 1 - ln 2).
  { rewrite dir_kl_dkl by (discriminate || reflexivity). unfold dkl. simpl.
    replace (2 + (1 + 0)) with (INR 2 + 1) by (simpl; lra).
    replace (1 + (1 + 0)) with (1 + 1) by lra. rewrite lgamma_fact.
    replace (lgamma 2) with (lgamma (1 + 1)) by (f_equal; lra).
    rewrite lgamma_rec, digamma_rec, lgamma_1, ln_1 by lra. simpl.
    replace (1 + 1) with 2 by lra. field. }
  split; [exact E|]. rewrite E. assert (L := ln_le_sub1 2 ltac:(lra)).
  assert (ln 2 < 1); [|lra]. rewrite <- (ln_exp 1). apply ln_increasing; [lra|].
  assert (X := exp_ineq1 1 ltac:(lra)). lra.
Qed.

(** ** C41: natural gradient steps never decrease the bound *)
Theorem C41_normal_gamma : forall d prior post data lrate,
  ng_ok d prior -> ng_ok d post -> frames_of_dim d data -> nonneg_weights data -> 0 <= lrate <= 1 ->
  let stats := wstats (2 * d + 2) nd_suff_stats data in
  let bound := elbo_of ng_nat ng_ess ng_log_norm prior stats in
  let upd l := std_update ng_nat ng_from_nat l prior post stats in
  bound post <= bound (upd lrate) /\ (forall q, ng_ok d q -> bound q <= bound (upd 1)).
Proof.
  intros d prior post data lrate Hp Hq Hx Hw Hl stats bound upd.
  assert (N0 := Nw_nonneg data Hw).
  assert (Hp' := Hp). destruct Hp' as (P1 & P2 & P3 & P4 & P5).
  assert (Hq' := Hq). destruct Hq' as (Q1 & Q2 & Q3 & Q4 & Q5).
  assert (Ls : length stats = (2 * d + 2)%nat) by (apply wstats_length; eapply ng_stats_len; eauto).
  set (full := ng_from_nat (vadd (ng_nat prior) stats)).
  assert (Efull : upd 1 = full) by (apply ng_full_is; auto).
  assert (Ofull : ng_ok d full) by (rewrite <- Efull; apply ng_full_ok; auto).
  assert (Hn : forall p, ng_ok d p -> length (ng_nat p) = (2 * d + 2)%nat)
    by (intros p (A & B & _); apply ng_nat_length; auto).
  assert (He : forall p, ng_ok d p -> length (ng_ess p) = (2 * d + 2)%nat)
    by (intros p (A & B & _); rewrite (ng_ess_length d); auto; lia).
  assert (Hf : ng_nat full = vadd (ng_nat prior) stats).
  { apply (ng_roundtrip' d); [rewrite vadd_length; rewrite Hn; auto|].
    assert (E := ng_upd_3 d 1 prior prior data P1 P2 P1 P2 Hx). fold stats in E.
    rewrite (gen_upd_nth ng_nat (2 * d + 2)) in E by (auto; lia).
    rewrite vadd_nth by (rewrite ?Hn; auto; lia). lra. }
  assert (Hkl : forall p q, ng_ok d p -> ng_ok d q ->
    0 <= kl_div (ng_nat p) (ng_ess p) (ng_nat q) (ng_log_norm p) (ng_log_norm q)) by (exact (ng_kl_nonneg d)).
  assert (Hm : forall l p q, ng_ok d p -> ng_ok d q -> 0 <= l <= 1 ->
    ng_nat (ng_from_nat (vadd (ng_nat p) (vscale l (vsub (ng_nat q) (ng_nat p))))) =
    vadd (ng_nat p) (vscale l (vsub (ng_nat q) (ng_nat p)))).
  { intros l p q Op Oq Hll. apply (ng_roundtrip' d); [rewrite vlin_length; rewrite !Hn; auto|].
    rewrite vlin_nth by (rewrite !Hn; auto; lia).
    destruct Op as (A1 & A2 & A3 & A4 & A5), Oq as (B1 & B2 & B3 & B4 & B5).
    assert (T := ng_nat_3 d p 0 A1 A2). assert (U := ng_nat_3 d q 0 B1 B2).
    rewrite Nat.add_0_r in T, U. rewrite T, U. cbn [nth].
    assert (X := convex_pos l _ _ Hll A3 B3). lra. }
  split.
  - apply (bound_step_not_worse ng_nat ng_ess ng_log_norm ng_from_nat (ng_ok d) (2 * d + 2) Hn He Hkl)
      with (full := full); auto.
    + intros p (A & B & C & _). apply (ng_roundtrip d); auto. lra.
    + intros; apply ng_mix_ok; auto.
  - intros q Oq. rewrite Efull.
    apply (bound_full_is_max ng_nat ng_ess ng_log_norm (ng_ok d) (2 * d + 2) Hn He Hkl); auto.
Qed.

Theorem C41_isotropic_normal_gamma : forall d prior post data lrate,
  ig_ok d prior -> ig_ok d post -> frames_of_dim d data -> nonneg_weights data -> 0 <= lrate <= 1 ->
  let stats := wstats (d + 3) in_suff_stats data in
  let bound := elbo_of ig_nat ig_ess ig_log_norm prior stats in
  let upd l := std_update ig_nat ig_from_nat l prior post stats in
  bound post <= bound (upd lrate) /\ (forall q, ig_ok d q -> bound q <= bound (upd 1)).
Proof.
  intros d prior post data lrate Hp Hq Hx Hw Hl stats bound upd.
  assert (N0 := Nw_nonneg data Hw).
  assert (Hp' := Hp). destruct Hp' as (P1 & P3 & P4 & P5).
  assert (Hq' := Hq). destruct Hq' as (Q1 & Q3 & Q4 & Q5).
  assert (Ls : length stats = (d + 3)%nat) by (apply ig_stats_length; auto).
  assert (Hn : forall p, ig_ok d p -> length (ig_nat p) = (d + 3)%nat)
    by (intros p (A & _); rewrite ig_nat_length, A; auto).
  assert (He : forall p, ig_ok d p -> length (ig_ess p) = (d + 3)%nat)
    by (intros p (A & _); rewrite ig_ess_length, A; auto).
  set (full := ig_from_nat (vadd (ig_nat prior) stats)).
  assert (Efull : upd 1 = full) by (apply (gen_full ig_nat ig_from_nat (d + 3)); auto).
  assert (Ofull : ig_ok d full) by (rewrite <- Efull; apply ig_full_ok; auto).
  assert (Hf : ig_nat full = vadd (ig_nat prior) stats) by (apply ig_full_nat; auto; lra).
  assert (Hkl : forall p q, ig_ok d p -> ig_ok d q ->
    0 <= kl_div (ig_nat p) (ig_ess p) (ig_nat q) (ig_log_norm p) (ig_log_norm q)) by (exact (ig_kl_nonneg d)).
  assert (Hm : forall l p q, ig_ok d p -> ig_ok d q -> 0 <= l <= 1 ->
    ig_nat (ig_from_nat (vadd (ig_nat p) (vscale l (vsub (ig_nat q) (ig_nat p))))) =
    vadd (ig_nat p) (vscale l (vsub (ig_nat q) (ig_nat p)))).
  { intros l p q Op Oq Hll. apply (ig_roundtrip' d); [rewrite vlin_length; rewrite !Hn; auto|].
    rewrite vlin_nth by (rewrite !Hn; auto; lia).
    destruct Op as (A1 & A3 & A4 & A5), Oq as (B1 & B3 & B4 & B5).
    rewrite !(ig_nat_2 d) by auto. cbn [nth].
    assert (X := convex_pos l _ _ Hll A3 B3). lra. }
  split.
  - apply (bound_step_not_worse ig_nat ig_ess ig_log_norm ig_from_nat (ig_ok d) (d + 3) Hn He Hkl)
      with (full := full); auto.
    + intros p (A & B & _). apply (ig_roundtrip d); auto. lra.
    + intros; apply ig_mix_ok; auto.
  - intros q Oq. rewrite Efull.
    apply (bound_full_is_max ig_nat ig_ess ig_log_norm (ig_ok d) (d + 3) Hn He Hkl); auto.
Qed.

Lemma dir_mix_spec d l p q : dir_ok d p -> dir_ok d q ->
  let r := dir_from_nat (vadd (dir_nat p) (vscale l (vsub (dir_nat q) (dir_nat p)))) in
  length r = d /\ forall k, (k < d)%nat -> nth k r 0 = (1 - l) * nth k p 0 + l * nth k q 0.
Proof.
  intros (P1 & P2 & P3) (Q1 & Q2 & Q3) r.
  destruct (dir_update_spec d l q p [] P2 Q1 P1 (Forall_nil _)) as [A B].
  assert (Nq : q <> []) by (destruct q; simpl in *; [lia|congruence]).
  assert (E : std_update dir_nat dir_from_nat l q p (wstats d cat_suff_stats []) = r).
  { unfold std_update, r. do 4 f_equal. unfold wstats. simpl. apply vec_ext.
    - rewrite vadd_length; rewrite dir_nat_length by auto; auto. now rewrite vzeros_length.
    - intros k Hk. rewrite vadd_length in Hk by (rewrite dir_nat_length, vzeros_length by auto; auto).
      rewrite vadd_nth; [|auto|rewrite vzeros_length; rewrite dir_nat_length in Hk by auto; lia].
      rewrite vzeros_nth. lra. }
  rewrite E in A, B. split; [exact A|]. intros k Hk. rewrite B by auto. unfold Sw. rewrite sumf_nil. lra.
Qed.

Theorem C41_dirichlet : forall d prior post data lrate,
  dir_ok d prior -> dir_ok d post -> frames_of_dim d data -> nonneg_weights data ->
  Forall (fun gx => Forall (fun v => 0 <= v) (snd gx)) data -> 0 <= lrate <= 1 ->
  let stats := wstats d cat_suff_stats data in
  let bound := elbo_of dir_nat dir_ess dir_log_norm prior stats in
  let upd l := std_update dir_nat dir_from_nat l prior post stats in
  bound post <= bound (upd lrate) /\ (forall q, dir_ok d q -> bound q <= bound (upd 1)).
Proof.
  intros d prior post data lrate Hp Hq Hx Hw Hv Hl stats bound upd.
  assert (Hd : (0 < d)%nat) by apply Hp.
  assert (Hne : forall p, dir_ok d p -> p <> [])
    by (intros p (A & _); destruct p; simpl in *; [lia|congruence]).
  assert (Hn : forall p, dir_ok d p -> length (dir_nat p) = d)
    by (intros p Op; rewrite dir_nat_length by auto; apply Op).
  assert (He : forall p, dir_ok d p -> length (dir_ess p) = d)
    by (intros p Op; rewrite dir_ess_length by auto; apply Op).
  assert (Hl' : forall gx, In gx data -> length (cat_suff_stats (snd gx)) = d).
  { intros gx Hin. unfold frames_of_dim in Hx. rewrite Forall_forall in Hx. assert (E := Hx gx Hin).
    rewrite cat_suff_stats_length; [auto|]. destruct (snd gx); simpl in *; [lia|congruence]. }
  assert (Ls : length stats = d) by (apply wstats_length; auto).
  set (full := dir_from_nat (vadd (dir_nat prior) stats)).
  assert (Efull : upd 1 = full) by (apply (gen_full dir_nat dir_from_nat d); auto).
  assert (Lsum : length (vadd (dir_nat prior) stats) = d) by (rewrite vadd_length; rewrite Hn; auto).
  assert (Ofull : dir_ok d full).
  { rewrite <- Efull. apply (C33_positive_forever d prior); auto.
    apply reach_step; [apply reach_init; auto|lra|repeat apply conj; auto]. }
  assert (Hf : dir_nat full = vadd (dir_nat prior) stats).
  { apply dir_nat_dir_from_nat. intros E. rewrite E in Lsum. simpl in Lsum. lia. }
  assert (Hkl : forall p q, dir_ok d p -> dir_ok d q ->
    0 <= kl_div (dir_nat p) (dir_ess p) (dir_nat q) (dir_log_norm p) (dir_log_norm q)) by (exact (dir_kl_nonneg d)).
  split.
  - apply (bound_step_not_worse dir_nat dir_ess dir_log_norm dir_from_nat (dir_ok d) d Hn He Hkl)
      with (full := full); auto.
    + intros p Op. apply dir_from_nat_dir_nat; auto.
    + intros l p q Op Oq Hll. destruct (dir_mix_spec d l p q Op Oq) as [A B].
      repeat apply conj; auto. apply Forall_pos_of_nth. intros k Hk. rewrite A in Hk. rewrite B by auto.
      destruct Op as (P1 & P2 & P3), Oq as (Q1 & Q2 & Q3).
      apply convex_pos; auto; apply Forall_pos_nth; auto; lia.
    + intros l p q Op Oq Hll. apply dir_nat_dir_from_nat. intros E.
      assert (X : length (vadd (dir_nat p) (vscale l (vsub (dir_nat q) (dir_nat p)))) = d)
        by (rewrite vlin_length; rewrite !Hn; auto).
      rewrite E in X. simpl in X. lia.
  - intros q Oq. rewrite Efull.
    apply (bound_full_is_max dir_nat dir_ess dir_log_norm (dir_ok d) d Hn He Hkl); auto.
Qed.

(** Gamma: any statistics for which the full update is a proper distribution. *)
Theorem C41_gamma : forall d prior post stats lrate,
  gamma_ok d prior -> gamma_ok d post -> length stats = (2 * d)%nat -> 0 <= lrate <= 1 ->
  (forall k, (k < d)%nat -> nth k stats 0 < nth k (g_rate prior) 0 /\
                            - nth (d + k) stats 0 < nth k (g_shape prior) 0) ->
  let bound := elbo_of gamma_nat gamma_ess gamma_log_norm prior stats in
  let upd l := std_update gamma_nat gamma_from_nat l prior post stats in
  bound post <= bound (upd lrate) /\ (forall q, gamma_ok d q -> bound q <= bound (upd 1)).
Proof.
  intros d prior post stats lrate Hp Hq Ls Hl Hs bound upd.
  assert (Hn : forall p, gamma_ok d p -> length (gamma_nat p) = (2 * d)%nat)
    by (intros p (A & B & _); apply gamma_nat_length; auto).
  assert (He : forall p, gamma_ok d p -> length (gamma_ess p) = (2 * d)%nat)
    by (intros p (A & B & _); apply gamma_ess_length; auto).
  set (full := gamma_from_nat (vadd (gamma_nat prior) stats)).
  assert (Efull : upd 1 = full) by (apply (gen_full gamma_nat gamma_from_nat (2 * d)); auto).
  assert (Ofull : gamma_ok d full).
  { rewrite <- Efull. destruct Hp as (P1 & P2 & P3 & P4), Hq as (Q1 & Q2 & Q3 & Q4).
    destruct (gamma_step_spec d 1 prior post stats P1 P2 Q1 Q2 Ls) as (A & B & C & D).
    fold (upd 1) in A, B, C, D. repeat apply conj; auto; apply Forall_pos_of_nth; intros k Hk.
    - rewrite A in Hk. rewrite D by auto. specialize (Hs k Hk). lra.
    - rewrite B in Hk. rewrite C by auto. specialize (Hs k Hk). lra. }
  assert (Hf : gamma_nat full = vadd (gamma_nat prior) stats).
  { apply (gamma_roundtrip' d). rewrite vadd_length; rewrite Hn; auto. }
  assert (Hkl : forall p q, gamma_ok d p -> gamma_ok d q ->
    0 <= kl_div (gamma_nat p) (gamma_ess p) (gamma_nat q) (gamma_log_norm p) (gamma_log_norm q))
    by (exact (gamma_kl_nonneg d)).
  split.
  - apply (bound_step_not_worse gamma_nat gamma_ess gamma_log_norm gamma_from_nat (gamma_ok d) (2 * d) Hn He Hkl)
      with (full := full); auto.
    + intros p (A & B & _). apply (gamma_roundtrip d); auto.
    + intros l p q Op Oq Hll.
      assert (Lm : length (vadd (gamma_nat p) (vscale l (vsub (gamma_nat q) (gamma_nat p)))) = (2 * d)%nat)
        by (rewrite vlin_length; rewrite !Hn; auto).
      assert (Em : forall k, (k < 2 * d)%nat ->
        nth k (vadd (gamma_nat p) (vscale l (vsub (gamma_nat q) (gamma_nat p)))) 0 =
        (1 - l) * nth k (gamma_nat p) 0 + l * nth k (gamma_nat q) 0).
      { intros k Hk. apply vlin_nth; rewrite !Hn; auto. }
      destruct (gamma_from_nat_spec d _ Lm) as (A & B & C & D).
      destruct Op as (P1 & P2 & P3 & P4), Oq as (Q1 & Q2 & Q3 & Q4).
      repeat apply conj; auto; apply Forall_pos_of_nth; intros k Hk.
      * rewrite A in Hk. rewrite D, Em by lia. rewrite !(gamma_nat_2 d) by (auto; lia).
        assert (X := convex_pos l _ _ Hll (Forall_pos_nth _ k P3 ltac:(lia)) (Forall_pos_nth _ k Q3 ltac:(lia))). lra.
      * rewrite B in Hk. rewrite C, Em by lia. rewrite !gamma_nat_1 by lia.
        assert (X := convex_pos l _ _ Hll (Forall_pos_nth _ k P4 ltac:(lia)) (Forall_pos_nth _ k Q4 ltac:(lia))). lra.
    + intros l p q Op Oq Hll. apply (gamma_roundtrip' d). rewrite vlin_length; rewrite !Hn; auto.
  - intros q Oq. rewrite Efull.
    apply (bound_full_is_max gamma_nat gamma_ess gamma_log_norm (gamma_ok d) (2 * d) Hn He Hkl); auto.
Qed.

(** The bound is not constant: an example where the step strictly improves it
    (one-dimensional Gamma, exact full step from [1/1] with statistics (0, 1)). *)
Example C41_ex :
  let g s := {| g_shape := [s]; g_rate := [1] |} in
  let bound := elbo_of gamma_nat gamma_ess gamma_log_norm (g 1) [0; 1] in
  std_update gamma_nat gamma_from_nat 1 (g 1) (g 1) [0; 1] = g 2 /\
  bound (g 2) - bound (g 1) = - digamma 1.
Proof.
  cbv zeta. split; [unfold std_update, gamma_from_nat, gamma_nat; simpl; leq; try lra; try (field; lra)|].
  unfold elbo_of, kl_div, gamma_ess, gamma_nat, gamma_log_norm, dot. vec_calc. cbn [g_shape g_rate map map2 app rsum].
  rewrite ln_1. replace 2 with (1 + 1) by lra. rewrite digamma_rec, lgamma_rec, ln_1, lgamma_1 by lra. field.
Qed.

(** ** C42: Gaussian log-densities *)
Theorem C42_diagonal : forall d m prec x,
  length m = d -> length prec = d -> length x = d -> Forall (fun p => 0 < p) prec ->
  nd_llh d (map2 Rmult prec m ++ prec ++ [rsum (map2 (fun l v => l * v ^ 2) prec m); rsum (map ln prec)])
    (nd_suff_stats x) =
  sumf (fun i => ln (gauss_pdf (nth i x 0) (nth i m 0) (nth i prec 0))) (seq 0 d).
Proof. exact nd_llh_natural. Qed.

Theorem C42_isotropic : forall d m prec x,
  length m = d -> length x = d -> 0 < prec ->
  in_llh d (map (fun v => prec * v) m ++ [prec; rsum (map (fun v => prec * v ^ 2) m); ln prec])
    (in_suff_stats x) =
  sumf (fun i => ln (gauss_pdf (nth i x 0) (nth i m 0) prec)) (seq 0 d).
Proof. exact in_llh_natural. Qed.

(** The diagonal normal distribution evaluates its own density. *)
Theorem C42_normal_diag_forward : forall d p x, ndc_ok d p -> length x = d ->
  ndc_forward p (ndc_suff_stats x) =
  sumf (fun i => ln (gauss_pdf (nth i x 0) (nth i (nc_mean p) 0) (/ nth i (nc_cov p) 0))) (seq 0 d).
Proof. exact ndc_forward_value. Qed.

Example C42_ex : nd_llh 1 ([2] ++ [2] ++ [2; ln 2]) (nd_suff_stats [3]) =
  1/2 * ln 2 - 1/2 * ln (2 * PI) - 4.
Proof. unfold nd_llh, nd_suff_stats, dot. vec_calc. simpl INR. field. Qed.

(** ** C85: real vectors to natural parameters and back *)
Theorem C85_diagonal : forall d m logprec, length m = d -> length logprec = d ->
  nd_params_from_pdfvec d (nd_pdfvec_from_rvec (m ++ logprec)) = (m, map exp logprec).
Proof.
  intros d m lp H1 H2. rewrite (nd_pdfvec_natural d) by auto.
  apply nd_params_natural; [auto|now rewrite map_length|].
  apply Forall_map, Forall_forall. intros x _. apply exp_pos.
Qed.

Theorem C85_gamma : forall d a b, length a = d -> length b = d ->
  gamma_params_from_pdfvec d (gamma_pdfvec_from_rvec (a ++ b)) =
  {| g_shape := map (fun x => exp (gamma_eps + x)) a; g_rate := map (fun x => exp (gamma_eps + x)) b |}.
Proof.
  intros d a b H1 H2. unfold gamma_pdfvec_from_rvec, gamma_params_from_pdfvec.
  rewrite app_length, H1, H2. replace (d + d)%nat with (d * 2)%nat by lia. rewrite Nat.div_mul by lia.
  assert (E1 : firstn d (a ++ b) = a).
  { rewrite <- H1, firstn_app, Nat.sub_diag, firstn_all. simpl. apply app_nil_r. }
  assert (E2 : skipn d (a ++ b) = b).
  { rewrite <- H1, skipn_app, Nat.sub_diag, skipn_all. reflexivity. }
  rewrite E1, E2. f_equal.
  - apply vec_ext; rewrite map_length, slice_length by (rewrite !app_length, !map_length; simpl; lia).
    + rewrite map_length. lia.
    + intros k Hk. rewrite map_nth_R by (rewrite slice_length; [lia|rewrite !app_length, !map_length; simpl; lia]).
      rewrite slice_nth by lia. rewrite nth_app_r by (rewrite !map_length; auto).
      rewrite nth_app_l by (rewrite !map_length; lia).
      rewrite map_map, !map_nth_R by lia. lra.
  - apply vec_ext; rewrite map_length, firstn_length, app_length, !map_length.
    + lia.
    + intros k Hk. rewrite map_nth_R by (rewrite firstn_length, app_length, !map_length; lia).
      rewrite firstn_nth_lt by lia. rewrite nth_app_l by (rewrite !map_length; lia).
      rewrite map_map, !map_nth_R by lia. lra.
Qed.

(** The isotropic version takes the last coordinate of the mean for the
    log-precision: the log-precision given is ignored ... *)
Theorem C85_isotropic_refuted : forall m c lp lp', m <> [] ->
  in_pdfvec_from_rvec ((m ++ [c]) ++ [lp]) = in_pdfvec_from_rvec ((m ++ [c]) ++ [lp']) /\
  snd (in_params_from_pdfvec (in_pdfvec_from_rvec ((m ++ [c]) ++ [lp]))) = exp c.
Proof.
  intros m c lp lp' Hm.
  assert (E : forall lp, in_pdfvec_from_rvec ((m ++ [c]) ++ [lp]) =
    map (fun v => exp c * v) (m ++ [c]) ++ [exp c; rsum (map (fun v => exp c * v ^ 2) (m ++ [c])); c]).
  { intros l. unfold in_pdfvec_from_rvec, from_end. rewrite app_length. cbn [length].
    replace (length (m ++ [c]) + 1 - 1)%nat with (length (m ++ [c])) by lia.
    rewrite firstn_app, Nat.sub_diag, firstn_all. cbn [firstn]. rewrite app_nil_r.
    assert (X : nth (length (m ++ [c]) + 1 - 2) ((m ++ [c]) ++ [l]) 0 = c).
    { rewrite app_length. cbn [length]. replace (length m + 1 + 1 - 2)%nat with (length m) by lia.
      rewrite nth_app_l by (rewrite app_length; simpl; lia).
      rewrite app_nth2, Nat.sub_diag by lia. reflexivity. }
    rewrite X. reflexivity. }
  split; [now rewrite !E|]. rewrite E. unfold in_params_from_pdfvec, from_end. cbn [snd].
  rewrite app_length, map_length. cbn [length].
  replace (length (m ++ [c]) + 3 - 3)%nat with (length (m ++ [c]) + 0)%nat by lia.
  rewrite nth_app_r by (now rewrite map_length). reflexivity.
Qed.

(** ... and a batch of natural parameters cannot be converted back. *)
Theorem C85_isotropic_batch_refuted : forall ps, in_params_from_pdfvecs ps = Err NameError.
Proof. reflexivity. Qed.

Theorem C85_isotropic_partial : forall m prec, 0 < prec ->
  in_params_from_pdfvec (map (fun v => prec * v) m ++ [prec; rsum (map (fun v => prec * v ^ 2) m); ln prec]) = (m, prec).
Proof.
  intros m l Hl. unfold in_params_from_pdfvec, from_end. rewrite app_length, map_length. cbn [length].
  replace (length m + 3 - 3)%nat with (length m + 0)%nat by lia.
  rewrite nth_app_r by (now rewrite map_length). cbn [nth]. f_equal.
  rewrite Nat.add_0_r. rewrite firstn_app, map_length, Nat.sub_diag. cbn [firstn]. rewrite app_nil_r.
  rewrite <- (map_length (fun v => l * v) m), firstn_all, map_map.
  rewrite (map_ext _ (fun x => x)) by (intros; field; lra). apply map_id.
Qed.

Example C85_ex :
  nd_params_from_pdfvec 2 (nd_pdfvec_from_rvec [3; 4; 0; 0]) = ([3; 4], [1; 1]).
Proof.
  change [3; 4; 0; 0] with ([3; 4] ++ [0; 0]). rewrite (C85_diagonal 2 [3; 4] [0; 0] eq_refl eq_refl). simpl. now rewrite exp_0.
Qed.

(** ** C86: fixed covariance likelihood *)
Theorem C86_value_partial : forall d x m, length x = d -> length m = d ->
  nfd_llh d (nfd_pdfvec_from_rvec m) (nfd_suff_stats x) =
  sumf (fun i => ln (gauss_pdf (nth i x 0) (nth i m 0) 1)) (seq 0 d) + 1/2 * sqnorm x.
Proof.
  intros d x m H1 H2. rewrite (nfd_llh_value d) by auto. rewrite sumf_plus, sumf_scal_l, sqnorm_nth, H1. reflexivity.
Qed.

(** Differences between two means are right, the density itself is not. *)
Theorem C86_difference_partial : forall d x m m', length x = d -> length m = d -> length m' = d ->
  nfd_llh d (nfd_pdfvec_from_rvec m) (nfd_suff_stats x) - nfd_llh d (nfd_pdfvec_from_rvec m') (nfd_suff_stats x) =
  sumf (fun i => ln (gauss_pdf (nth i x 0) (nth i m 0) 1) - ln (gauss_pdf (nth i x 0) (nth i m' 0) 1)) (seq 0 d).
Proof. intros d x m m' H1 H2 H3. rewrite !(C86_value_partial d), sumf_minus by auto. ring. Qed.

Theorem C86_refuted : exists x m,
  nfd_llh 1 (nfd_pdfvec_from_rvec m) (nfd_suff_stats x) <>
  sumf (fun i => ln (gauss_pdf (nth i x 0) (nth i m 0) 1)) (seq 0 1).
Proof.
  exists [2], [0]. rewrite (C86_value_partial 1) by reflexivity. unfold sqnorm. simpl. lra.
Qed.

(** ** C87: expected log-likelihoods *)
Theorem C87_diagonal : forall d p x, ng_ok d p -> length x = d ->
  nd_llh d (ng_ess p) (nd_suff_stats x) =
  sumf (fun i => 1/2 * (digamma (ng_shape p) - ln (nth i (ng_rates p) 0)) - 1/2 * ln (2 * PI)
     - 1/2 * (ng_shape p / nth i (ng_rates p) 0) * (nth i x 0 - nth i (ng_mean p) 0) ^ 2
     - 1/2 * / ng_scale p) (seq 0 d) /\
  nd_llh d (ng_ess p) (nd_suff_stats x) <=
  sumf (fun i => ln (gauss_pdf (nth i x 0) (nth i (fst (ng_mean_precision p)) 0)
                               (nth i (snd (ng_mean_precision p)) 0))) (seq 0 d).
Proof.
  intros d p x Hp Hx. assert (E := ng_exp_llh d p x Hp Hx). split; [exact E|]. rewrite E.
  destruct Hp as (P1 & P2 & P3 & P4 & P5).
  apply sumf_le. intros i Hi. apply in_seq in Hi. cbn [ng_mean_precision fst snd].
  rewrite map_nth_R by lia. assert (B := Forall_pos_nth _ i P5 ltac:(lia)).
  rewrite ln_gauss_pdf by (now apply Rdiv_lt_0_compat). rewrite ln_div by auto.
  assert (D := digamma_le_ln _ P4). assert (0 < / ng_scale p) by (now apply Rinv_0_lt_compat). lra.
Qed.

Theorem C87_isotropic : forall d p x, ig_ok d p -> length x = d ->
  in_llh d (ig_ess p) (in_suff_stats x) =
  sumf (fun i => 1/2 * (digamma (ig_shape p) - ln (ig_rate p)) - 1/2 * ln (2 * PI)
     - 1/2 * (ig_shape p / ig_rate p) * (nth i x 0 - nth i (ig_mean p) 0) ^ 2
     - 1/2 * / ig_scale p) (seq 0 d) /\
  in_llh d (ig_ess p) (in_suff_stats x) <=
  sumf (fun i => ln (gauss_pdf (nth i x 0) (nth i (fst (ig_mean_precision p)) 0)
                               (snd (ig_mean_precision p)))) (seq 0 d).
Proof.
  intros d p x Hp Hx. assert (E := ig_exp_llh d p x Hp Hx). split; [exact E|]. rewrite E.
  destruct Hp as (P1 & P3 & P4 & P5).
  apply sumf_le. intros i Hi. cbn [ig_mean_precision fst snd].
  rewrite ln_gauss_pdf by (now apply Rdiv_lt_0_compat). rewrite ln_div by auto.
  assert (D := digamma_le_ln _ P4). assert (0 < / ig_scale p) by (now apply Rinv_0_lt_compat). lra.
Qed.

Theorem C87_categorical : forall d a k, dir_ok d a -> (k < d)%nat ->
  cat_llh (dir_ess a) (cat_suff_stats (unit_row d k)) = digamma (nth k a 0) - digamma (rsum a) /\
  cat_llh (dir_ess a) (cat_suff_stats (unit_row d k)) <= ln (nth k (dir_mean a) 0).
Proof.
  intros d a k Ha Hk. assert (E := dir_exp_llh d a k Ha Hk). split; [exact E|]. rewrite E.
  destruct Ha as (A1 & A2 & A3).
  assert (P := Forall_pos_nth _ k A3 ltac:(lia)).
  unfold dir_mean. rewrite map_nth_R by lia.
  assert (Hle : nth k a 0 <= rsum a).
  { rewrite rsum_nth. apply (sumf_ge_term (fun i => nth i a 0)); [|apply in_seq; lia].
    intros i Hi. apply in_seq in Hi. apply Rlt_le, Forall_pos_nth; auto; lia. }
  rewrite ln_div by lra. assert (D := digamma_ln_mono _ _ P Hle). lra.
Qed.

Example C87_ex : cat_llh (dir_ess [1; 1]) (cat_suff_stats [1; 0]) = -1 /\ ln (nth 0 (dir_mean [1; 1]) 0) = - ln 2.
Proof.
  split.
  - change [1; 0] with (unit_row 2 0).
    rewrite (dir_exp_llh 2); [|repeat constructor; simpl; lra || lia|lia].
    simpl. replace (1 + (1 + 0)) with (1 + 1) by lra. rewrite digamma_rec by lra. field.
  - unfold dir_mean. simpl. replace (1 / (1 + (1 + 0))) with (/ 2) by field. apply ln_Rinv. lra.
Qed.

(** ** C88: announced dimensions *)
Theorem C88_dimensions_partial : forall d x r, length x = d -> (0 < d)%nat ->
  length (cat_suff_stats x) = cat_stats_dim d true /\
  length (gamma_suff_stats x) = gamma_stats_dim d true /\
  length (nd_suff_stats x) = nd_stats_dim d true /\
  length (in_suff_stats x) = in_stats_dim d true /\
  (length r = cat_stats_dim d false -> length (cat_pdfvec_from_rvec r) = cat_stats_dim d true) /\
  (length r = gamma_stats_dim d false -> length (gamma_pdfvec_from_rvec r) = gamma_stats_dim d true) /\
  (length r = nd_stats_dim d false -> length (nd_pdfvec_from_rvec r) = nd_stats_dim d true) /\
  (length r = in_stats_dim d false -> length (in_pdfvec_from_rvec r) = in_stats_dim d true).
Proof.
  intros d x r Hx Hd. unfold cat_stats_dim, gamma_stats_dim, nd_stats_dim, in_stats_dim.
  assert (Hne : x <> []) by (destruct x; simpl in *; [lia|congruence]).
  assert (Hdiv : ((2 * d + 0) / 2)%nat = d).
  { replace (2 * d + 0)%nat with (d * 2)%nat by lia. apply Nat.div_mul. lia. }
  repeat apply conj.
  - rewrite cat_suff_stats_length by auto. lia.
  - unfold gamma_suff_stats. rewrite !app_length, !map_length. simpl. lia.
  - rewrite nd_suff_length. lia.
  - rewrite in_suff_length. lia.
  - intros Hr. unfold cat_pdfvec_from_rvec. rewrite app_length. simpl. lia.
  - intros Hr. unfold gamma_pdfvec_from_rvec. rewrite Hr, Hdiv.
    rewrite !app_length, !map_length, skipn_length, firstn_length. simpl length. lia.
  - intros Hr. unfold nd_pdfvec_from_rvec. rewrite Hr, Hdiv.
    rewrite !app_length, !map2_length, !map_length, slice_length, firstn_length by lia. simpl length. lia.
  - intros Hr. unfold in_pdfvec_from_rvec. rewrite app_length, map_length, firstn_length. simpl length. lia.
Qed.

(** The fixed covariance likelihood announces d+1 but produces 2d statistics. *)
Theorem C88_fixed_covariance_refuted : forall d x, length x = d -> (1 < d)%nat ->
  length (nfd_suff_stats x) <> nfd_stats_dim d true.
Proof.
  intros d x Hx Hd. unfold nfd_suff_stats, nfd_stats_dim. rewrite app_length, map_length. lia.
Qed.

(** ** C89: entropy *)
Theorem C89_refuted : forall n e l, entropy n e l = Err NameError.
Proof. reflexivity. Qed.

Print Assumptions C33_count_conjugacy.
Print Assumptions C34_normalised_partial.
Print Assumptions C36_textbook_posterior.
Print Assumptions C40_dirichlet.
Print Assumptions C41_normal_gamma.
Print Assumptions C42_diagonal.
Print Assumptions C87_categorical.

(** Likelihood functions compared with densities. *)
From Coq Require Import Reals List Arith Bool Lia Lra.
From Verif Require Import Prelude Vec Gibbs Lgamma Dist_Model Dist_Spec Dist_Proofs NG_Proofs KL_Proofs.
Import ListNotations.
Local Open Scope R_scope.

Lemma two_pi_pos : 0 < 2 * PI.
Proof. assert (H := PI_RGT_0). lra. Qed.

Lemma ln_sqrt x : 0 < x -> ln (sqrt x) = 1/2 * ln x.
Proof.
  intros H. assert (E : ln (sqrt x * sqrt x) = ln x) by (rewrite sqrt_sqrt; lra).
  rewrite ln_mult in E by (apply sqrt_lt_R0; auto). lra.
Qed.

Lemma gauss_pdf_pos x m l : 0 < l -> 0 < gauss_pdf x m l.
Proof.
  intros H. unfold gauss_pdf. apply Rmult_lt_0_compat; [|apply exp_pos].
  apply sqrt_lt_R0, Rdiv_lt_0_compat; [auto|apply two_pi_pos].
Qed.

Lemma ln_gauss_pdf x m l : 0 < l ->
  ln (gauss_pdf x m l) = 1/2 * ln l - 1/2 * ln (2 * PI) - 1/2 * l * (x - m) ^ 2.
Proof.
  intros H. assert (P := two_pi_pos). unfold gauss_pdf.
  rewrite ln_mult, ln_exp, ln_sqrt, ln_div; auto using exp_pos.
  - lra.
  - now apply Rdiv_lt_0_compat.
  - now apply sqrt_lt_R0, Rdiv_lt_0_compat.
Qed.

Lemma ln_gamma_pdf x a b : 0 < x -> 0 < b ->
  ln (gamma_pdf x a b) = a * ln b + (a - 1) * ln x - b * x - lgamma a.
Proof.
  intros Hx Hb. unfold gamma_pdf, Rpower. rewrite <- !exp_plus.
  unfold Rdiv. rewrite <- exp_Ropp, <- exp_plus, ln_exp. ring.
Qed.

(** ** Diagonal covariance *)
Lemma nd_dot d x v : length x = d -> length v = (d + (d + 2))%nat ->
  dot (nd_suff_stats x) v =
  sumf (fun k => nth k x 0 * nth k v 0 - 1/2 * nth k x 0 ^ 2 * nth (d + k) v 0) (seq 0 d)
  - 1/2 * nth (2 * d) v 0 + 1/2 * nth (2 * d + 1) v 0.
Proof.
  intros H1 H2. assert (L := nd_suff_length x). rewrite H1 in L.
  rewrite dot_nth by lia. rewrite L. replace (2 * d + 2)%nat with (d + (d + 2))%nat by lia.
  rewrite !sumf_seq_split, sumf_seq_2.
  replace (d + (d + 0))%nat with (2 * d + 0)%nat by lia.
  replace (d + (d + 1))%nat with (2 * d + 1)%nat by lia.
  assert (T0 := nd_suff_3 x 0). assert (T1 := nd_suff_3 x 1). rewrite H1 in T0, T1.
  rewrite T0, T1. cbn [nth].
  rewrite sumf_minus.
  rewrite (sumf_ext (fun k => nth k (nd_suff_stats x) 0 * nth k v 0) (fun k => nth k x 0 * nth k v 0)).
  2:{ intros k Hk. apply in_seq in Hk. rewrite nd_suff_1 by lia. reflexivity. }
  rewrite (sumf_ext (fun k => nth (d + k) (nd_suff_stats x) 0 * nth (d + k) v 0)
    (fun k => - (1/2 * nth k x 0 ^ 2 * nth (d + k) v 0))).
  2:{ intros k Hk. apply in_seq in Hk.
      assert (T := nd_suff_2 x k ltac:(lia)). rewrite H1 in T. rewrite T. ring. }
  rewrite sumf_opp. rewrite Nat.add_0_r. ring.
Qed.

(** natural form of (mean, precision) *)
Definition nd_natural (m prec : list R) : list R :=
  map2 Rmult prec m ++ prec ++
  [rsum (map2 (fun l x => l * x ^ 2) prec m); rsum (map ln prec)].

Lemma nd_natural_length d m l : length m = d -> length l = d -> length (nd_natural m l) = (d + (d + 2))%nat.
Proof. intros H1 H2. unfold nd_natural. rewrite !app_length, map2_length. simpl. lia. Qed.

Lemma nd_llh_natural d m l x :
  length m = d -> length l = d -> length x = d -> Forall (fun p => 0 < p) l ->
  nd_llh d (nd_natural m l) (nd_suff_stats x) =
  sumf (fun i => ln (gauss_pdf (nth i x 0) (nth i m 0) (nth i l 0))) (seq 0 d).
Proof.
  intros H1 H2 H3 Hp. unfold nd_llh. rewrite (nd_dot d) by (auto; apply nd_natural_length; auto).
  assert (E1 : forall k, (k < d)%nat -> nth k (nd_natural m l) 0 = nth k l 0 * nth k m 0).
  { intros k Hk. unfold nd_natural. rewrite nth_app_l by (rewrite map2_length; lia).
    rewrite map2_nth_R by lia. reflexivity. }
  assert (E2 : forall k, (k < d)%nat -> nth (d + k) (nd_natural m l) 0 = nth k l 0).
  { intros k Hk. unfold nd_natural. rewrite nth_app_r by (rewrite map2_length; lia).
    rewrite nth_app_l by lia. reflexivity. }
  assert (E3 : forall j, nth (2 * d + j) (nd_natural m l) 0 =
    nth j [rsum (map2 (fun l x => l * x ^ 2) l m); rsum (map ln l)] 0).
  { intros j. unfold nd_natural. replace (2 * d + j)%nat with (d + (d + j))%nat by lia.
    rewrite nth_app_r by (rewrite map2_length; lia). rewrite nth_app_r by lia. reflexivity. }
  assert (E30 := E3 0%nat). assert (E31 := E3 1%nat). rewrite Nat.add_0_r in E30. cbn [nth] in E30, E31.
  rewrite E30, E31. rewrite !rsum_nth, map2_length, map_length, H1, H2, Nat.min_id.
  replace (- (1/2) * INR d * ln (2 * PI)) with (sumf (fun _ => - (1/2) * ln (2 * PI)) (seq 0 d))
    by (rewrite sumf_const, seq_length; ring).
  rewrite <- !sumf_scal_l, <- sumf_minus, <- !sumf_plus.
  apply sumf_ext. intros k Hk. apply in_seq in Hk.
  rewrite E1, E2, map2_nth_R, map_nth_R by lia.
  rewrite ln_gauss_pdf by (apply Forall_pos_nth; auto; lia). lra.
Qed.

Lemma nd_pdfvec_natural d m lp : length m = d -> length lp = d ->
  nd_pdfvec_from_rvec (m ++ lp) = nd_natural m (map exp lp).
Proof.
  intros H1 H2. unfold nd_pdfvec_from_rvec. rewrite app_length, H1, H2.
  replace (d + d)%nat with (d * 2)%nat by lia. rewrite Nat.div_mul by lia.
  assert (E1 : firstn d (m ++ lp) = m).
  { rewrite <- H1, firstn_app, Nat.sub_diag, firstn_all. simpl. apply app_nil_r. }
  assert (E2 : slice d (2 * d) (m ++ lp) = lp).
  { unfold slice. rewrite <- H1, skipn_app, Nat.sub_diag, skipn_all. cbn [skipn app].
    rewrite H1. replace (2 * d - d)%nat with (length lp) by lia. apply firstn_all. }
  rewrite E1, E2. unfold nd_natural. rewrite map_map.
  rewrite (map_ext (fun x => ln (exp x)) (fun x => x)) by (intros; apply ln_exp).
  now rewrite map_id.
Qed.

Lemma nd_params_natural d m l : length m = d -> length l = d -> Forall (fun p => 0 < p) l ->
  nd_params_from_pdfvec d (nd_natural m l) = (m, l).
Proof.
  intros H1 H2 Hp. unfold nd_params_from_pdfvec.
  assert (E2 : slice d (2 * d) (nd_natural m l) = l).
  { apply vec_ext.
    - rewrite slice_length; [lia|]. rewrite (nd_natural_length d) by auto. lia.
    - intros k Hk. rewrite slice_length in Hk by (rewrite (nd_natural_length d) by auto; lia).
      rewrite slice_nth by lia. unfold nd_natural. rewrite nth_app_r by (rewrite map2_length; lia).
      rewrite nth_app_l by lia. reflexivity. }
  rewrite E2. f_equal. apply vec_ext.
  - rewrite map2_length, firstn_length, (nd_natural_length d) by auto. lia.
  - intros k Hk. rewrite map2_length, firstn_length, (nd_natural_length d) in Hk by auto.
    rewrite map2_nth_R by (rewrite ?firstn_length, ?(nd_natural_length d) by auto; lia).
    rewrite firstn_nth_lt by lia. unfold nd_natural. rewrite nth_app_l by (rewrite map2_length; lia).
    rewrite map2_nth_R by lia. assert (P := Forall_pos_nth _ k Hp ltac:(lia)). field. lra.
Qed.

(** Expected log-likelihood under a NormalGamma posterior. *)
Lemma ng_exp_llh d p x : ng_ok d p -> length x = d ->
  nd_llh d (ng_ess p) (nd_suff_stats x) =
  sumf (fun i => 1/2 * (digamma (ng_shape p) - ln (nth i (ng_rates p) 0)) - 1/2 * ln (2 * PI)
     - 1/2 * (ng_shape p / nth i (ng_rates p) 0) * (nth i x 0 - nth i (ng_mean p) 0) ^ 2
     - 1/2 * / ng_scale p) (seq 0 d).
Proof.
  intros (P1 & P2 & P3 & P4 & P5) Hx. unfold nd_llh.
  rewrite (nd_dot d) by (auto using ng_ess_length).
  assert (E30 := ng_ess_3 d p 0 P1 P2). assert (E31 := ng_ess_3 d p 1 P1 P2).
  replace (d + (d + 0))%nat with (2 * d)%nat in E30 by lia.
  replace (d + (d + 1))%nat with (2 * d + 1)%nat in E31 by lia. cbn [nth] in E30, E31.
  rewrite E30, E31.
  replace (- (1/2) * INR d * ln (2 * PI)) with (sumf (fun _ => - (1/2) * ln (2 * PI)) (seq 0 d))
    by (rewrite sumf_const, seq_length; ring).
  replace (INR d / ng_scale p) with (sumf (fun _ => / ng_scale p) (seq 0 d))
    by (rewrite sumf_const, seq_length; reflexivity).
  rewrite <- sumf_plus. rewrite <- !sumf_scal_l. rewrite <- sumf_minus, <- !sumf_plus.
  apply sumf_ext. intros k Hk. apply in_seq in Hk.
  rewrite (ng_ess_1 d), (ng_ess_2 d) by (auto; lia).
  assert (B := Forall_pos_nth _ k P5 ltac:(lia)). field. lra.
Qed.

Lemma digamma_le_ln a : 0 < a -> digamma a <= ln a.
Proof.
  intros H. assert (T := lgamma_tangent (a + 1) a ltac:(lra) H).
  assert (B := bphi_nonneg (a + 1) a ltac:(lra) H). rewrite lgamma_rec in T by auto. lra.
Qed.

Lemma digamma_ln_mono a a' : 0 < a -> a <= a' -> ln a' - ln a <= digamma a' - digamma a.
Proof.
  intros H H'. destruct (Req_dec a a') as [->|Hne]; [lra|].
  assert (T1 := lgamma_tangent a' a ltac:(lra) H). assert (T2 := lgamma_tangent a a' H ltac:(lra)).
  unfold bphi in *. rewrite ln_div in T1, T2 by lra.
  apply Rmult_le_reg_r with (a' - a); [lra|]. lra.
Qed.

(** ** Isotropic covariance *)
Lemma in_dot d x v : length x = d -> length v = (d + 3)%nat ->
  dot (in_suff_stats x) v =
  sumf (fun k => nth k x 0 * nth k v 0) (seq 0 d)
  - 1/2 * sqnorm x * nth d v 0 - 1/2 * nth (d + 1) v 0 + 1/2 * INR d * nth (d + 2) v 0.
Proof.
  intros H1 H2. assert (L := in_suff_length x). rewrite H1 in L.
  rewrite dot_nth by lia. rewrite L, sumf_seq_split, sumf_seq_3.
  rewrite !(in_suff_2 d) by auto. cbn [nth].
  rewrite (sumf_ext (fun k => nth k (in_suff_stats x) 0 * nth k v 0) (fun k => nth k x 0 * nth k v 0)).
  2:{ intros k Hk. apply in_seq in Hk. rewrite in_suff_1 by lia. reflexivity. }
  rewrite Nat.add_0_r. ring.
Qed.

Definition in_natural (m : list R) (l : R) : list R :=
  map (fun x => l * x) m ++ [l; rsum (map (fun x => l * x ^ 2) m); ln l].

Lemma in_natural_length m l : length (in_natural m l) = (length m + 3)%nat.
Proof. unfold in_natural. rewrite app_length, map_length. reflexivity. Qed.

Lemma in_llh_natural d m l x : length m = d -> length x = d -> 0 < l ->
  in_llh d (in_natural m l) (in_suff_stats x) =
  sumf (fun i => ln (gauss_pdf (nth i x 0) (nth i m 0) l)) (seq 0 d).
Proof.
  intros H1 H2 Hl. unfold in_llh.
  rewrite (in_dot d) by (auto; rewrite in_natural_length; lia).
  assert (E : forall j, nth (d + j) (in_natural m l) 0 = nth j [l; rsum (map (fun x => l * x ^ 2) m); ln l] 0).
  { intros j. unfold in_natural. rewrite nth_app_r by (rewrite map_length; auto). reflexivity. }
  assert (E0 := E 0%nat). rewrite Nat.add_0_r in E0. rewrite E0, !E. cbn [nth].
  rewrite (sumf_ext (fun k => nth k x 0 * nth k (in_natural m l) 0) (fun k => l * (nth k x 0 * nth k m 0))).
  2:{ intros k Hk. apply in_seq in Hk. unfold in_natural. rewrite nth_app_l by (rewrite map_length; lia).
      rewrite map_nth_R by lia. ring. }
  rewrite (sumf_ext (fun i => ln (gauss_pdf (nth i x 0) (nth i m 0) l))
    (fun i => 1/2 * ln l - 1/2 * ln (2 * PI) - 1/2 * l * (nth i x 0 ^ 2) + l * (nth i x 0 * nth i m 0) - 1/2 * l * nth i m 0 ^ 2)).
  2:{ intros k _. rewrite ln_gauss_pdf by auto. field. }
  rewrite rsum_nth, map_length, H1, sqnorm_nth, H2.
  rewrite (sumf_ext (fun i => nth i (map (fun x0 => l * x0 ^ 2) m) 0) (fun i => l * nth i m 0 ^ 2)).
  2:{ intros k Hk. apply in_seq in Hk. rewrite map_nth_R by lia. reflexivity. }
  rewrite !sumf_minus, sumf_plus, !sumf_minus, !sumf_scal_l, !sumf_const, seq_length. field.
Qed.

Lemma ig_exp_llh d p x : ig_ok d p -> length x = d ->
  in_llh d (ig_ess p) (in_suff_stats x) =
  sumf (fun i => 1/2 * (digamma (ig_shape p) - ln (ig_rate p)) - 1/2 * ln (2 * PI)
     - 1/2 * (ig_shape p / ig_rate p) * (nth i x 0 - nth i (ig_mean p) 0) ^ 2
     - 1/2 * / ig_scale p) (seq 0 d).
Proof.
  intros (P1 & P3 & P4 & P5) Hx. unfold in_llh.
  rewrite (in_dot d) by (auto; rewrite ig_ess_length; lia).
  assert (E0 := ig_ess_2 d p 0 P1). rewrite Nat.add_0_r in E0.
  rewrite E0, !(ig_ess_2 d) by auto. cbn [nth].
  rewrite (sumf_ext (fun k => nth k x 0 * nth k (ig_ess p) 0)
    (fun k => ig_shape p / ig_rate p * (nth k x 0 * nth k (ig_mean p) 0))).
  2:{ intros k Hk. apply in_seq in Hk. rewrite ig_ess_1 by lia. ring. }
  rewrite (sumf_ext (fun i => 1/2 * (digamma (ig_shape p) - ln (ig_rate p)) - 1/2 * ln (2 * PI)
     - 1/2 * (ig_shape p / ig_rate p) * (nth i x 0 - nth i (ig_mean p) 0) ^ 2
     - 1/2 * / ig_scale p)
    (fun i => 1/2 * (digamma (ig_shape p) - ln (ig_rate p)) - 1/2 * ln (2 * PI) - 1/2 * / ig_scale p
     - 1/2 * (ig_shape p / ig_rate p) * (nth i x 0 ^ 2)
     + (ig_shape p / ig_rate p) * (nth i x 0 * nth i (ig_mean p) 0)
     - 1/2 * (ig_shape p / ig_rate p) * (nth i (ig_mean p) 0 ^ 2))) by (intros; field; lra).
  rewrite !sqnorm_nth, P1, Hx.
  rewrite !sumf_minus, sumf_plus, !sumf_minus, !sumf_scal_l, !sumf_const, seq_length. field. lra.
Qed.

(** ** Gamma *)
Lemma gamma_llh_value d r x : length r = (2 * d)%nat -> length x = d -> Forall (fun v => 0 < v) x ->
  let a i := exp (gamma_eps + nth i r 0) in
  let b i := exp (gamma_eps + nth (d + i) r 0) in
  gamma_llh (gamma_pdfvec_from_rvec r) (gamma_suff_stats x) =
  sumf (fun i => ln (gamma_pdf (nth i x 0) (a i) (b i)) + 2 * (b i * nth i x 0)) (seq 0 d).
Proof.
  intros Hr Hx Hp a b. unfold gamma_llh, gamma_pdfvec_from_rvec.
  assert (Ed : (length r / 2)%nat = d).
  { rewrite Hr. replace (2 * d)%nat with (d * 2)%nat by lia. apply Nat.div_mul. lia. }
  rewrite Ed.
  set (shape := map _ (firstn d r)). set (rate := map _ (skipn d r)).
  assert (L1 : length shape = d) by (unfold shape; rewrite map_length, firstn_length; lia).
  assert (L2 : length rate = d) by (unfold rate; rewrite map_length, skipn_length; lia).
  assert (N1 : forall i, (i < d)%nat -> nth i shape 0 = a i).
  { intros i Hi. unfold shape. rewrite map_nth_R by (rewrite firstn_length; lia).
    rewrite firstn_nth_lt by auto. reflexivity. }
  assert (N2 : forall i, (i < d)%nat -> nth i rate 0 = b i).
  { intros i Hi. unfold rate. rewrite map_nth_R by (rewrite skipn_length; lia).
    rewrite skipn_nth. reflexivity. }
  unfold gamma_suff_stats.
  rewrite dot_app by (rewrite !map_length; lia). rewrite dot_app by (rewrite !map_length; lia).
  rewrite !dot_nth by (rewrite ?map_length; simpl; lia). rewrite !map_length, Hx.
  assert (E1 : sumf (fun k => nth k [1] 0 * nth k [- rsum (map2 (fun a0 b0 => lgamma a0 - a0 * ln b0) shape rate)] 0) (seq 0 (length [1]))
    = - sumf (fun i => lgamma (a i) - a i * ln (b i)) (seq 0 d)).
  { unfold sumf at 1. simpl. rewrite rsum_nth, map2_length, L1, L2, Nat.min_id.
    rewrite (sumf_ext _ (fun i => lgamma (a i) - a i * ln (b i))); [lra|].
    intros i Hi. apply in_seq in Hi. rewrite map2_nth_R by lia. rewrite N1, N2 by lia. reflexivity. }
  rewrite E1. rewrite <- sumf_opp, <- !sumf_plus. apply sumf_ext. intros i Hi. apply in_seq in Hi.
  rewrite !map_nth_R by lia. rewrite N1, N2 by lia.
  rewrite ln_gamma_pdf; [|apply Forall_pos_nth; auto; lia|apply exp_pos]. ring.
Qed.

(** ** Dirichlet *)
Lemma dir_exp_llh d a k : dir_ok d a -> (k < d)%nat ->
  cat_llh (dir_ess a) (cat_suff_stats (unit_row d k)) = digamma (nth k a 0) - digamma (rsum a).
Proof.
  intros (A1 & A2 & A3) Hk.
  assert (Lu : length (unit_row d k) = d) by apply unit_row_length.
  unfold cat_llh, cat_suff_stats, set_last, dir_ess.
  rewrite dot_app by (rewrite map_length, !removelast_length, Lu; auto).
  rewrite rsum_unit_row by auto.
  assert (E1 : dot [1] [digamma (last a 0) - digamma (rsum a)] = digamma (last a 0) - digamma (rsum a))
    by (unfold dot; simpl; lra).
  rewrite E1.
  rewrite dot_nth by (rewrite map_length, !removelast_length, Lu; auto).
  rewrite removelast_length, Lu.
  rewrite (sumf_ext _ (fun i => (if Nat.eqb i k then 1 else 0) * (digamma (nth i a 0) - digamma (last a 0)))).
  2:{ intros i Hi. apply in_seq in Hi. rewrite removelast_nth by (rewrite Lu; lia).
      rewrite unit_row_nth by lia. rewrite map_nth_R by (rewrite removelast_length; lia).
      rewrite removelast_nth by lia. reflexivity. }
  destruct (Nat.eq_dec k (pred d)) as [->|Hne].
  - rewrite sumf_zero.
    2:{ intros i Hi. apply in_seq in Hi. destruct (Nat.eqb_spec i (pred d)); [lia|lra]. }
    rewrite last_nth, A1. lra.
  - rewrite (sumf_seq_single _ (pred d) k); [|lia|].
    2:{ intros i Hi Hn. destruct (Nat.eqb_spec i k); [lia|lra]. }
    rewrite Nat.eqb_refl. lra.
Qed.

(** ** Fixed identity covariance *)
Lemma nfd_llh_value d x m : length x = d -> length m = d ->
  nfd_llh d (nfd_pdfvec_from_rvec m) (nfd_suff_stats x) =
  sumf (fun i => ln (gauss_pdf (nth i x 0) (nth i m 0) 1) + 1/2 * nth i x 0 ^ 2) (seq 0 d).
Proof.
  intros H1 H2. unfold nfd_llh, nfd_pdfvec_from_rvec, nfd_suff_stats.
  rewrite dot_app by congruence. rewrite !dot_nth by (rewrite ?map_length; congruence).
  rewrite map_length, H1.
  replace (- (1/2) * INR d * ln (2 * PI)) with (sumf (fun _ => - (1/2) * ln (2 * PI)) (seq 0 d))
    by (rewrite sumf_const, seq_length; ring).
  rewrite <- !sumf_plus. apply sumf_ext. intros k Hk. apply in_seq in Hk.
  rewrite map_nth_R, (map_nth_R (fun x => x ^ 2)) by lia.
  rewrite ln_gauss_pdf, ln_1 by lra. field.
Qed.

(** ndc_forward: the density of the distribution itself. *)
Lemma ndc_forward_value d p x : ndc_ok d p -> length x = d ->
  ndc_forward p (ndc_suff_stats x) =
  sumf (fun i => ln (gauss_pdf (nth i x 0) (nth i (nc_mean p) 0) (/ nth i (nc_cov p) 0))) (seq 0 d).
Proof.
  intros (P1 & P2 & P3) Hx. unfold ndc_forward, ndc_suff_stats, ndc_nat.
  change (rsum (vmul ?u ?v)) with (dot u v).
  rewrite dot_app by (rewrite map2_length; lia).
  rewrite !dot_nth by (rewrite ?map2_length, ?map_length; lia).
  rewrite map2_length, map_length, P1, P2, Nat.min_id.
  replace (- (1/2) * INR d * ln (2 * PI)) with (sumf (fun _ => - (1/2) * ln (2 * PI)) (seq 0 d))
    by (rewrite sumf_const, seq_length; ring).
  rewrite !rsum_nth, map2_length, map_length, P1, P2, Nat.min_id.
  rewrite <- !sumf_plus, <- sumf_scal_l, <- !sumf_minus, <- sumf_plus.
  apply sumf_ext. intros k Hk. apply in_seq in Hk.
  rewrite !map2_nth_R, !map_nth_R by lia.
  assert (B := Forall_pos_nth _ k P3 ltac:(lia)).
  rewrite ln_gauss_pdf by (apply Rinv_0_lt_compat; auto).
  rewrite ln_Rinv by auto. field. lra.
Qed.

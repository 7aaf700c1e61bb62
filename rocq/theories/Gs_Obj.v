(** Covariances, samples and objectives of the subspace model. *)
From Coq Require Import Reals List Lra Lia Arith Bool.
From Verif Require Import Prelude Vec Gibbs Dist_Model Dist_Spec Dist_Proofs Llh_Proofs Mat MatDet NW_Model NW_Spec LMat NW_Proofs NW_Llh Gs_Model Gs_Spec Gs_Proofs.
Import ListNotations.
Local Open Scope R_scope.

(** ** Lists and sums *)
Lemma bsum_pick n k c : (k < n)%nat -> bsum n (fun i => if Nat.eqb i k then c else 0) = c.
Proof.
  intros Hk. rewrite (bsum_single n _ k Hk); [now rewrite Nat.eqb_refl|].
  intros i _ Hi. destruct (Nat.eqb_spec i k); [contradiction|reflexivity].
Qed.

Lemma nth_firstn_lt {A} (l : list A) n i d : (i < n)%nat -> nth i (firstn n l) d = nth i l d.
Proof. revert n l. induction i; intros [|n] [|a l] H; cbn; auto; try lia. apply IHi. lia. Qed.

Lemma nth_skipn {A} (l : list A) n i d : nth i (skipn n l) d = nth (n + i) l d.
Proof. revert l. induction n; intros [|a l]; cbn; auto. destruct i; reflexivity. Qed.

Lemma seq_map_nth {A} (f : nat -> A) n i d : (i < n)%nat -> nth i (map f (seq 0 n)) d = f i.
Proof.
  intros H. rewrite (nth_indep _ d (f 0%nat)) by (now rewrite map_length, seq_length).
  rewrite map_nth, seq_nth by auto. reflexivity.
Qed.

(** ** Covariance of the latent posteriors *)
Definition mfactor (ld off : list R) : fm := fun i j =>
  if Nat.ltb j i then nth (tri i + j) off 0 else if Nat.eqb i j then / 1000 + exp (nth i ld 0) else 0.

Lemma mll_factor_is D ld off : length ld = D -> length off = tri D -> mll_factor D ld off = mk D (mfactor ld off).
Proof.
  intros Hl Ho. unfold mll_factor. apply mk_ext. intros i j Hi Hj. unfold mfactor. rewrite tril_idxs_rows.
  destruct (Nat.eqb_spec i j) as [->|Hne].
  - rewrite Nat.ltb_irrefl. now rewrite (map_nth_R (fun v => / 1000 + exp v)) by lia.
  - destruct (Nat.ltb_spec j i) as [Hlt|Hge].
    + apply entry_nth.
      * apply tril_rows_NoDup.
      * rewrite tril_rows_length. assert (T := tri_le (S i) D ltac:(lia)). cbn [tri] in T. lia.
      * now rewrite tril_rows_length.
      * now apply tril_rows_nth.
    + apply entry_out. intros H. apply tril_rows_in in H. lia.
Qed.

Lemma mfactor_lower D ld off : lower D (mfactor ld off).
Proof.
  intros i j Hi Hj Hij. unfold mfactor. destruct (Nat.ltb_spec j i); [lia|].
  destruct (Nat.eqb_spec i j); [lia|reflexivity].
Qed.

Lemma mfactor_diag ld off i : mfactor ld off i i = / 1000 + exp (nth i ld 0).
Proof. unfold mfactor. now rewrite Nat.ltb_irrefl, Nat.eqb_refl. Qed.

Lemma mfactor_pos D ld off : pos_diag D (mfactor ld off).
Proof. intros i Hi. rewrite mfactor_diag. assert (X := exp_pos (nth i ld 0)). lra. Qed.

Lemma mll_cov_ok D ld off : length ld = D -> length off = init_offdiag D ->
  exists c, mll_cov D ld off = Ok c /\ is_mat D c /\ is_chol D (mget c) (mfactor ld off).
Proof.
  intros Hl Ho. unfold init_offdiag in Ho. rewrite tri_closed in Ho. unfold mll_cov.
  rewrite tril_idxs_rows, tril_rows_length, Ho, Nat.eqb_refl. eexists. split; [reflexivity|].
  split; [apply is_mat_mk|]. split; [apply mfactor_lower|]. split; [apply mfactor_pos|].
  rewrite mll_factor_is by auto. apply meq_sym. apply gram_get.
Qed.

Lemma mll_cov_bad D ld off : length off <> init_offdiag D -> mll_cov D ld off = Err RuntimeError.
Proof.
  intros H. unfold init_offdiag in H. rewrite tri_closed in H. unfold mll_cov. rewrite tril_idxs_rows, tril_rows_length.
  destruct (Nat.eqb_spec (length off) (tri D)); [contradiction|reflexivity].
Qed.

Lemma tri_split i j i' j' : (j < i)%nat -> (j' < i')%nat -> (tri i + j = tri i' + j')%nat -> i = i' /\ j = j'.
Proof.
  intros H H' E. destruct (Nat.lt_total i i') as [L|[L|L]].
  - assert (T := tri_le (S i) i' ltac:(lia)). cbn [tri] in T. lia.
  - subst. lia.
  - assert (T := tri_le (S i') i ltac:(lia)). cbn [tri] in T. lia.
Qed.

(** Every triangular factor with a diagonal above 1/1000 is reachable. *)
Lemma mfactor_reach D (L : fm) : lower D L -> (forall i, (i < D)%nat -> / 1000 < L i i) ->
  exists ld off, length ld = D /\ length off = tri D /\ meq D (mfactor ld off) L.
Proof.
  intros HL HD.
  exists (map (fun i => ln (L i i - / 1000)) (seq 0 D)), (map (fun ij => L (fst ij) (snd ij)) (tril_rows D)).
  split; [now rewrite map_length, seq_length|]. split; [now rewrite map_length, tril_rows_length|].
  intros i j Hi Hj. unfold mfactor. destruct (Nat.ltb_spec j i) as [Hlt|Hge].
  - rewrite (nth_indep _ 0 (L (fst (0%nat, 0%nat)) (snd (0%nat, 0%nat)))).
    + rewrite (map_nth (fun ij => L (fst ij) (snd ij))), tril_rows_nth by auto. reflexivity.
    + rewrite map_length, tril_rows_length. assert (T := tri_le (S i) D ltac:(lia)). cbn [tri] in T. lia.
  - destruct (Nat.eqb_spec i j) as [->|Hne].
    + rewrite map_seq_nth by auto. rewrite exp_ln; [ring|]. specialize (HD j Hj). lra.
    + symmetry. apply HL; auto. lia.
Qed.

(** ** Samples *)
Lemma ndc_sample_nth p eps i D : ndc_ok D p -> length eps = D -> (i < D)%nat ->
  nth i (map2 Rplus (nc_mean p) (map2 (fun s e => sqrt s * e) (nc_cov p) eps)) 0 =
  nth i (nc_mean p) 0 + sqrt (nth i (nc_cov p) 0) * nth i eps 0.
Proof.
  intros (H1 & H2 & H3) He Hi. rewrite map2_nth_R by (rewrite ?map2_length; lia).
  rewrite (map2_nth_R (fun s e => sqrt s * e)) by lia. reflexivity.
Qed.

Lemma ndc_sample_density D p eps : ndc_ok D p -> length eps = D ->
  let x := map2 Rplus (nc_mean p) (map2 (fun s e => sqrt s * e) (nc_cov p) eps) in
  ndc_forward p (ndc_suff_stats x) = std_normal_logpdf eps - 1/2 * sumf ln (nc_cov p).
Proof.
  intros Hp He x. assert (Hp' := Hp). destruct Hp' as (H1 & H2 & H3).
  rewrite (ndc_forward_value D); auto; [|unfold x; rewrite !map2_length; lia].
  unfold std_normal_logpdf. change (sumf (fun e => ln (gauss_pdf e 0 1)) eps) with (rsum (map (fun e => ln (gauss_pdf e 0 1)) eps)).
  change (sumf ln (nc_cov p)) with (rsum (map ln (nc_cov p))).
  rewrite !rsum_nth, !map_length, He, H2. rewrite <- sumf_scal_l, <- sumf_minus. apply sumf_ext. intros i Hi. apply in_seq in Hi.
  rewrite (map_nth_R (fun e => ln (gauss_pdf e 0 1))), map_nth_R by lia.
  unfold x. rewrite (ndc_sample_nth p eps i D) by (auto; lia).
  assert (P := Forall_pos_nth _ i H3 ltac:(lia)).
  rewrite !ln_gauss_pdf by (try lra; now apply Rinv_0_lt_compat). rewrite ln_1, ln_Rinv by auto.
  replace (nth i (nc_mean p) 0 + sqrt (nth i (nc_cov p) 0) * nth i eps 0 - nth i (nc_mean p) 0)
    with (sqrt (nth i (nc_cov p) 0) * nth i eps 0) by ring.
  rewrite Rpow_mult_distr. rewrite <- Rsqr_pow2, Rsqr_sqrt by lra. field. lra.
Qed.

Lemma nf_sample_ok D p L noise : nf_ok D p -> is_chol D (mget (nf_cov p)) L ->
  nf_sample p noise = Ok (map (fun eps => map2 Rplus (nf_mean p)
    (map (fun i => sumf (fun k => nth k eps 0 * L i k) (seq 0 D)) (seq 0 D))) noise).
Proof.
  intros (H1 & H2 & H3) HL. unfold nf_sample. rewrite (t_cholesky_ok D _ L H2 HL). cbn [bindr]. f_equal.
  apply map_ext. intros eps. rewrite H1. f_equal. apply map_ext_in. intros i Hi. apply in_seq in Hi.
  change (rsum (map ?f (seq 0 D))) with (sumf f (seq 0 D)).
  apply sumf_ext. intros k Hk. apply in_seq in Hk. rewrite mget_mk by lia. reflexivity.
Qed.

Lemma nf_sample_density D p L eps : nf_ok D p -> is_chol D (mget (nf_cov p)) L -> length eps = D ->
  let x := map2 Rplus (nf_mean p) (map (fun i => sumf (fun k => nth k eps 0 * L i k) (seq 0 D)) (seq 0 D)) in
  nf_forward true p (nf_suff_stats x) = Ok (std_normal_logpdf eps - bsum D (fun i => ln (L i i))).
Proof.
  intros Hp HL He x. assert (Hp' := Hp). destruct Hp' as (H1 & H2 & H3).
  destruct (posdef_inverse D _ H3) as (P & _ & HP).
  assert (PP := inverse_posdef D _ P H3 HP). destruct (chol_complete D P PP) as (K & _ & HK).
  assert (Lx : length x = D) by (unfold x; rewrite map2_length, map_length, seq_length; lia).
  rewrite (nf_forward_value D p x K); auto; [|exists P; auto]. f_equal.
  rewrite gauss_logpdf_quad, (logdet_inverse D _ P L K HL HK HP).
  destruct (minv_complete D L (lower_kernel D L (proj1 HL) (proj1 (proj2 HL)))) as (T & ET). apply minv_sound in ET.
  destruct (chol_inverse_factor D _ L T P HL ET HP) as (_ & _ & HU). change (mT (mT T)) with T in HU.
  rewrite (quad_ext D (mmul D K (mT K)) (mmul D (mT T) (mT (mT T))) _ (mvm D L (vf eps))).
  - rewrite quad_factor. change (mT (mT T)) with T.
    rewrite (bsum_ext D _ (fun i => nth i eps 0 ^ 2)).
    2:{ intros i Hi. f_equal. rewrite <- mvm_mmul. rewrite (mvm_ext D _ idm (vf eps) (vf eps) i Hi (proj2 ET) (fun _ _ => eq_refl)).
        now rewrite mvm_idm. }
    unfold std_normal_logpdf. change (sumf (fun e => ln (gauss_pdf e 0 1)) eps) with (rsum (map (fun e => ln (gauss_pdf e 0 1)) eps)).
    rewrite rsum_nth, map_length, He.
    replace (- (1/2) * INR D * ln (2 * PI)) with (sumf (fun _ => - (1/2) * ln (2 * PI)) (seq 0 D))
      by (rewrite sumf_const, seq_length; ring).
    unfold bsum. rewrite <- sumf_opp.
    rewrite (sumf_ext (fun i => nth i (map (fun e => ln (gauss_pdf e 0 1)) eps) 0)
      (fun i => - (1/2) * nth i eps 0 ^ 2 + - (1/2) * ln (2 * PI))).
    + rewrite sumf_plus, !sumf_scal_l, sumf_opp. ring.
    + intros i Hi. apply in_seq in Hi. rewrite (map_nth_R (fun e => ln (gauss_pdf e 0 1))) by lia.
      rewrite ln_gauss_pdf by lra. rewrite ln_1. field.
  - change (mT (mT T)) with T. eapply meq_trans; [apply HK|apply meq_sym; exact HU].
  - intros k Hk. unfold x. rewrite map2_nth_R by (rewrite ?map_length, ?seq_length; lia).
    rewrite map_seq_nth by auto. unfold mvm, vf. unfold bsum.
    rewrite (sumf_ext (fun k0 => L k k0 * nth k0 eps 0) (fun k0 => nth k0 eps 0 * L k k0)) by (intros; ring). ring.
Qed.

(** ** Entropies *)
Lemma xentropy_ok p s_h q : (forall hs h, In hs s_h -> In h hs -> length (lp_suff p h) = q) -> length (lp_nat p) = q ->
  Forall (fun hs => hs <> []) s_h ->
  xentropy p s_h = map (fun hs => - mean_of (fun h => lp_llh p (lp_suff p h)) hs) s_h.
Proof.
  intros Hs Hn Hne. unfold xentropy. apply map_ext_in. intros hs Hin. f_equal. rewrite Forall_forall in Hne.
  unfold lp_llh. rewrite (dot_vmean _ q); auto.
  - rewrite mean_of_map. rewrite mean_of_const by auto. reflexivity.
  - specialize (Hne hs Hin). destruct hs; [contradiction|discriminate].
  - apply Forall_map, Forall_forall. intros h Hh. eapply Hs; eauto.
Qed.

Lemma ndc_forward_mean D p hs : ndc_ok D p -> hs <> [] -> Forall (fun h => length h = D) hs ->
  ndc_forward p (vmean (map ndc_suff_stats hs)) = mean_of (fun h => ndc_forward p (ndc_suff_stats h)) hs.
Proof.
  intros (H1 & H2 & H3) Hne Hh. unfold ndc_forward. change (rsum (vmul ?u ?v)) with (dot u v).
  set (c := 1/2 * _). set (e := - (1/2) * _ * _).
  rewrite (dot_comm (ndc_nat p) (vmean _)). rewrite (dot_vmean _ (D + D)).
  - rewrite mean_of_map. replace (mean_of _ hs - c + e) with (mean_of (fun h => dot (ndc_suff_stats h) (ndc_nat p)) hs + (e - c)) by ring.
    rewrite <- mean_of_const by auto. apply mean_of_ext. intros h _. rewrite dot_comm. ring.
  - destruct hs; [contradiction|discriminate].
  - apply Forall_map. eapply Forall_impl; [|exact Hh]. cbn beta. intros h Hl. unfold ndc_suff_stats. rewrite app_length, map_length. lia.
  - unfold ndc_nat. rewrite app_length, map2_length, map_length. lia.
Qed.

Lemma entropy_diag_ok D posts s_h : Forall (ndc_ok D) posts -> length posts = length s_h ->
  Forall (fun hs => hs <> [] /\ Forall (fun h => length h = D) hs) s_h ->
  entropy_diag posts s_h = map2 (fun q hs => - mean_of (fun h => ndc_forward q (ndc_suff_stats h)) hs) posts s_h.
Proof.
  intros HP. revert s_h. induction HP as [|p posts Hp HP IH]; intros [|hs s_h] HL H; cbn in HL; try discriminate; [reflexivity|].
  inversion H as [|? ? (A & B) H']; subst. unfold entropy_diag in *. cbn [map2]. f_equal.
  - f_equal. now apply (ndc_forward_mean D).
  - apply IH; auto.
Qed.

Lemma nf_forward_mean D p hs : nf_ok D p -> hs <> [] -> Forall (fun h => length h = D) hs ->
  exists g, (forall h, In h hs -> nf_forward true p (nf_suff_stats h) = Ok (g h)) /\
  nf_forward true p (vmean (map nf_suff_stats hs)) = Ok (mean_of g hs).
Proof.
  intros (H1 & H2 & H3) Hne Hh. destruct (posdef_inverse D _ H3) as (P & _ & HP). destruct (chol_complete D _ H3) as (L & _ & HL).
  unfold nf_forward. destruct (nf_nat_value D p P H1 H2 HP) as (n & -> & N1 & _).
  rewrite (t_cholesky_ok D _ L H2 HL). cbn [bindr].
  set (c := 1/2 * _). set (e := - (1/2) * _).
  exists (fun h => dot n (nf_suff_stats h) - c + e). split; [reflexivity|]. f_equal.
  rewrite (dot_comm n (vmean _)). rewrite (dot_vmean _ (D + D * D)).
  - rewrite mean_of_map. replace (mean_of _ hs - c + e) with (mean_of (fun h => dot (nf_suff_stats h) n) hs + (e - c)) by ring.
    rewrite <- mean_of_const by auto. apply mean_of_ext. intros h _. rewrite dot_comm. ring.
  - destruct hs; [contradiction|discriminate].
  - apply Forall_map. eapply Forall_impl; [|exact Hh]. cbn beta. intros h Hl. unfold nf_suff_stats. rewrite app_length, vscale_length.
    rewrite (concat_flat D) by (now apply outer_is_mat). lia.
  - lia.
Qed.

(** ** Objective *)
Lemma map2_map_r {A B C D} (f : A -> B -> C) (g : D -> B) l m : map2 f l (map g m) = map2 (fun a d => f a (g d)) l m.
Proof. revert m. induction l; intros [|]; cbn; congruence. Qed.

Lemma grid_rvecs (F : list R -> list (list R)) (sv_of : list R -> svec) params (hss : list (list (list R))) :
  (forall v, length v = svec_dim params -> real_shape params (sv_of v) /\ flat (sv_of v) = v) ->
  (forall hs h r, In hs hss -> In h hs -> In r (F h) -> length r = svec_dim params) ->
  map (map flat) (map (fun hs => map sv_of (flat_map F hs)) hss) = map (flat_map F) hss.
Proof.
  intros Hsv HF. rewrite map_map. apply map_ext_in. intros hs Hin. rewrite map_map.
  transitivity (map (fun r : list R => r) (flat_map F hs)); [|apply map_id].
  apply map_ext_in. intros r Hr. apply in_flat_map in Hr. destruct Hr as (h & Hh & Hr). now apply Hsv, (HF hs h r).
Qed.

Lemma rvecs_pdfs (F : list R -> list (list R)) (sv_of : list R -> svec) params (hss : list (list (list R))) S0 P0 :
  Forall sparam_ok params -> params <> [] -> hss <> [] -> (0 < S0)%nat -> (0 < P0)%nat ->
  Forall (fun hs => length hs = S0) hss -> (forall h, length (F h) = P0) ->
  (forall v, length v = svec_dim params -> real_shape params (sv_of v) /\ flat (sv_of v) = v) ->
  (forall hs h r, In hs hss -> In h hs -> In r (F h) -> length r = svec_dim params) ->
  pdfvecs_from_rvecs params (map (flat_map F) hss) =
  Ok (map (fun hs => map (fun r => flat (pdf_image params (sv_of r))) (flat_map F hs)) hss).
Proof.
  intros Hok Hp Hne HS HP HL HF Hsv Hr. rewrite <- (grid_rvecs F sv_of params) by auto.
  rewrite (pdfvecs_from_rvecs_ok params _ (S0 * P0)%nat); auto; [|destruct hss; [contradiction|discriminate]|nia|].
  - rewrite map_map. f_equal. apply map_ext. intros hs. now rewrite map_map.
  - apply Forall_map, Forall_forall. intros hs Hin. rewrite Forall_forall in HL. split.
    + rewrite map_length, flat_map_concat_map, (concat_length_const P0), map_length; [now rewrite HL|].
      apply Forall_map, Forall_forall. auto.
    + apply Forall_map, Forall_forall. intros r Hi. apply in_flat_map in Hi. destruct Hi as (h & Hh & Hi).
      now apply Hsv, (Hr hs h r).
Qed.

Lemma dot_vmean_flat {A} params (g : A -> svec) l st : l <> [] -> (forall a, In a l -> pdf_shape params (g a)) -> pdf_shape params st ->
  dot (vmean (map (fun a => flat (g a)) l)) (flat st) = mean_of (fun a => sv_dot (g a) st) l.
Proof.
  intros Hne Hg Hst. rewrite (dot_vmean _ (qdim params)).
  - rewrite mean_of_map. apply mean_of_ext. intros a Ha. now apply (flat_dot params); auto.
  - destruct l; [contradiction|discriminate].
  - apply Forall_map, Forall_forall. intros a Ha. now apply flat_length_pdf, Hg.
  - now apply flat_length_pdf.
Qed.

Lemma flat_map_ne {A B} (F : A -> list B) l n : l <> [] -> (0 < n)%nat -> (forall a, length (F a) = n) -> flat_map F l <> [].
Proof. intros Hne Hn HF. destruct l as [|a l]; [contradiction|]. cbn. specialize (HF a). destruct (F a); [cbn in HF; lia|discriminate]. Qed.

Lemma gsm_llh_ok (F : list R -> list (list R)) (sv_of : list R -> svec) transform params prior ent
    (s_h : list (list (list R))) (stats : list svec) S0 P0 :
  Forall sparam_ok params -> params <> [] -> s_h <> [] -> (0 < S0)%nat -> (0 < P0)%nat ->
  Forall (fun hs => length hs = S0) s_h -> (forall h, length (F h) = P0) ->
  transform (concat s_h) = Ok (map F (concat s_h)) ->
  (forall v, length v = svec_dim params -> real_shape params (sv_of v) /\ flat (sv_of v) = v) ->
  (forall h r, In h (concat s_h) -> In r (F h) -> length r = svec_dim params) ->
  Forall (pdf_shape params) stats ->
  gsm_llh transform params prior ent s_h (gsm_suff_stats stats) =
  Ok (vsub (map2 (fun hs st => mean_of (fun r => sv_dot (pdf_image params (sv_of r)) st) (flat_map F hs)) s_h stats)
           (vsub (xentropy prior s_h) ent),
      map (fun hs => vmean (map (fun r => flat (pdf_image params (sv_of r))) (flat_map F hs))) s_h).
Proof.
  intros Hok Hp Hne HS HP HL HF HT Hsv Hr Hst.
  assert (Hr' : forall hs h r, In hs s_h -> In h hs -> In r (F h) -> length r = svec_dim params).
  { intros hs h r H1 H2 H3. apply (Hr h r); auto. apply in_concat. eauto. }
  unfold gsm_llh. rewrite (rvecs_from_samples_ok F transform s_h S0 P0) by auto. cbn [bindr].
  rewrite (rvecs_pdfs F sv_of params s_h S0 P0) by auto. cbn [bindr]. rewrite map_map. f_equal. f_equal. f_equal.
  unfold gsm_suff_stats. rewrite map2_map_l, map2_map_r. apply map2_ext_in. intros i hs st E1 E2.
  apply nth_error_In in E1, E2. rewrite Forall_forall in Hst, HL.
  change (concat (map (@concat R) st)) with (flat st). apply (dot_vmean_flat params); auto.
  - apply (flat_map_ne F hs P0); auto. specialize (HL hs E1). destruct hs; [cbn in HL; lia|discriminate].
  - intros r Hi. apply in_flat_map in Hi. destruct Hi as (h & Hh & Hi). apply pdf_image_shape; auto.
    apply Hsv, (Hr' hs h r); auto.
Qed.

(** ** GSMSet *)
Lemma pair_rvecs_map (F G : list R -> list (list R)) s_h s_m :
  pair_rvecs (map (flat_map F) s_h) (map (flat_map G) s_m) =
  flat_map (fun ms => map (fun hs => map (fun rm => vadd (fst rm) (snd rm)) (combine (flat_map F hs) (flat_map G ms))) s_h) s_m.
Proof.
  unfold pair_rvecs. rewrite !flat_map_concat_map, !map_map. f_equal. apply map_ext. intros ms. rewrite map_map. apply map_ext.
  intros hs. apply map2_combine.
Qed.

Lemma flat_map_const_length {A B} (F : A -> list B) l n : (forall a, length (F a) = n) -> length (flat_map F l) = (length l * n)%nat.
Proof.
  intros H. rewrite flat_map_concat_map, (concat_length_const n), map_length; [reflexivity|].
  apply Forall_map, Forall_forall. auto.
Qed.

Lemma combine_ne {A B} (l : list A) (m : list B) n : length l = n -> length m = n -> (0 < n)%nat -> combine l m <> [].
Proof. destruct l, m; cbn; intros; try lia; discriminate. Qed.

Lemma gsmset_llh_ok (F G : list R -> list (list R)) (sv_of : list R -> svec) transform disc_transform params local_kl
    (s_h s_m : list (list (list R))) (stats : list svec) S0 P0 :
  Forall sparam_ok params -> params <> [] -> s_h <> [] -> s_m <> [] -> (0 < S0)%nat -> (0 < P0)%nat ->
  Forall (fun hs => length hs = S0) s_h -> Forall (fun ms => length ms = S0) s_m ->
  (forall h, length (F h) = P0) -> (forall h, length (G h) = P0) ->
  transform (concat s_h) = Ok (map F (concat s_h)) ->
  disc_transform (concat s_m) = Ok (map G (concat s_m)) ->
  (forall v, length v = svec_dim params -> real_shape params (sv_of v) /\ flat (sv_of v) = v) ->
  (forall h r, In h (concat s_h) -> In r (F h) -> length r = svec_dim params) ->
  (forall h r, In h (concat s_m) -> In r (G h) -> length r = svec_dim params) ->
  Forall (pdf_shape params) stats ->
  let pairs hs ms := combine (flat_map F hs) (flat_map G ms) in
  let pdf rm := pdf_image params (sv_of (vadd (fst rm) (snd rm))) in
  gsmset_llh transform disc_transform params local_kl s_h s_m (gsm_suff_stats stats) =
  Ok (map (fun n => map (fun ms => nth n (vsub (map2 (fun hs st => mean_of (fun rm => sv_dot (pdf rm) st) (pairs hs ms)) s_h stats) local_kl) 0) s_m)
          (seq 0 (length s_h)),
      map (fun ms => map (fun hs => vmean (map (fun rm => flat (pdf rm)) (pairs hs ms))) s_h) s_m).
Proof.
  intros Hok Hp Hne Hnem HS HP HL HLm HF HG HT HTm Hsv Hr Hrm Hst pairs pdf.
  unfold gsmset_llh. rewrite (rvecs_from_samples_ok F transform s_h S0 P0) by auto. cbn [bindr].
  rewrite (rvecs_from_samples_ok G disc_transform s_m S0 P0) by auto. cbn [bindr].
  rewrite pair_rvecs_map.
  rewrite Forall_forall in HL, HLm.
  assert (Hpair : forall hs ms rm, In hs s_h -> In ms s_m -> In rm (pairs hs ms) ->
    length (vadd (fst rm) (snd rm)) = svec_dim params).
  { intros hs ms (r, m) H1 H2 H3. assert (X := in_combine_l _ _ _ _ H3). assert (Y := in_combine_r _ _ _ _ H3). cbn [fst snd].
    apply in_flat_map in X, Y. destruct X as (h & Hh & X), Y as (h' & Hh' & Y).
    assert (Lr : length r = svec_dim params) by (apply (Hr h r); [apply in_concat; eauto|auto]).
    assert (Lm : length m = svec_dim params) by (apply (Hrm h' m); [apply in_concat; eauto|auto]).
    rewrite vadd_length; congruence. }
  assert (Lp : forall hs ms, In hs s_h -> In ms s_m -> length (pairs hs ms) = (S0 * P0)%nat).
  { intros hs ms H1 H2. unfold pairs. rewrite combine_length, !(flat_map_const_length _ _ P0) by auto. rewrite HL, HLm; auto. lia. }
  set (grid := flat_map (fun ms => map (fun hs => map (fun rm => sv_of (vadd (fst rm) (snd rm))) (pairs hs ms)) s_h) s_m).
  assert (Eg : map (map flat) grid =
     flat_map (fun ms => map (fun hs => map (fun rm => vadd (fst rm) (snd rm)) (combine (flat_map F hs) (flat_map G ms))) s_h) s_m).
  { unfold grid. rewrite !flat_map_concat_map, map_concat, map_map. f_equal. apply map_ext_in. intros ms Hm. rewrite map_map.
    apply map_ext_in. intros hs Hh. rewrite map_map. apply map_ext_in. intros rm Hrm'. now apply Hsv, (Hpair hs ms). }
  rewrite <- Eg.
  rewrite (pdfvecs_from_rvecs_ok params grid (S0 * P0)%nat); auto; [|..].
  - cbn [bindr].
    assert (Ev : map vmean (map (map (fun sv => flat (pdf_image params sv))) grid) =
      concat (map (fun ms => map (fun hs => vmean (map (fun rm => flat (pdf rm)) (pairs hs ms))) s_h) s_m)).
    { unfold grid. rewrite flat_map_concat_map, !map_concat, !map_map. f_equal. apply map_ext. intros ms. rewrite !map_map.
      apply map_ext. intros hs. now rewrite map_map. }
    rewrite Ev, (reshape3_concat (length s_h)).
    + cbn [bindr]. f_equal. f_equal. apply map_ext. intros n. rewrite !map_map. apply map_ext_in. intros ms Hm. f_equal. f_equal.
      unfold gsm_suff_stats. rewrite map2_map_l, map2_map_r. apply map2_ext_in. intros i hs st E1 E2.
      apply nth_error_In in E1, E2. rewrite Forall_forall in Hst.
      change (concat (map (@concat R) st)) with (flat st). apply (dot_vmean_flat params); auto.
      * apply (combine_ne _ _ (S0 * P0)%nat); [| |nia]; rewrite (flat_map_const_length _ _ P0) by auto; [rewrite HL|rewrite HLm]; auto.
      * intros rm Hi. unfold pdf. apply pdf_image_shape; auto. apply Hsv, (Hpair hs ms); auto.
    + now rewrite map_length.
    + destruct s_m; [contradiction|cbn; lia].
    + apply Forall_map, Forall_forall. intros ms _. now rewrite map_length.
  - unfold grid. destruct s_m; [contradiction|]. destruct s_h; [contradiction|]. discriminate.
  - nia.
  - apply Forall_forall. intros g Hg. unfold grid in Hg. apply in_flat_map in Hg. destruct Hg as (ms & Hm & Hg).
    apply in_map_iff in Hg. destruct Hg as (hs & <- & Hh). split; [rewrite map_length; auto|].
    apply Forall_map, Forall_forall. intros rm Hi. apply Hsv, (Hpair hs ms); auto.
Qed.

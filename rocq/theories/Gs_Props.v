(** Properties of the Generalized Subspace Model (C105-C110, C113). *)
From Coq Require Import Reals List Lra Lia Arith Bool.
From Verif Require Import Prelude Vec Gibbs Dist_Model Dist_Spec Dist_Proofs Llh_Proofs Mat MatDet NW_Model NW_Spec LMat NW_Proofs NW_Llh Gs_Model Gs_Spec Gs_Proofs Gs_Obj.
Import ListNotations.
Local Open Scope R_scope.

(** ** C105: covariances of the posteriors optimized by gradient descent *)
Theorem C105_diagonal_positive : forall log_diag_cov,
  Forall (fun v => / 10000 < v) (mld_diag_cov log_diag_cov) /\ length (mld_diag_cov log_diag_cov) = length log_diag_cov.
Proof.
  intros l. split; [|apply map_length]. apply Forall_map, Forall_forall. intros v _. assert (X := exp_pos v). lra.
Qed.

Theorem C105_full_positive_definite : forall D log_diag_L L_offdiag,
  length log_diag_L = D -> length L_offdiag = init_offdiag D ->
  exists c, mll_cov D log_diag_L L_offdiag = Ok c /\ is_mat D c /\ posdef D (mget c) /\
            t_cholesky c = Ok (mll_factor D log_diag_L L_offdiag).
Proof.
  intros D ld off H1 H2. destruct (mll_cov_ok D ld off H1 H2) as (c & E & M & HL). exists c. split; [auto|].
  split; [auto|]. split; [eapply is_chol_posdef; eauto|]. rewrite (t_cholesky_ok D c _ M HL).
  unfold init_offdiag in H2. rewrite tri_closed in H2. now rewrite mll_factor_is.
Qed.

(** All the covariances whose Cholesky factor has a diagonal above 1e-3 can be
    represented. *)
Theorem C105_full_reachable : forall D A L, is_chol D A L -> (forall i, (i < D)%nat -> / 1000 < L i i) ->
  exists log_diag_L L_offdiag c, length log_diag_L = D /\ length L_offdiag = init_offdiag D /\
    mll_cov D log_diag_L L_offdiag = Ok c /\ meq D (mget c) A.
Proof.
  intros D A L HL HD. destruct (mfactor_reach D L (proj1 HL) HD) as (ld & off & H1 & H2 & E).
  assert (H2' : length off = init_offdiag D) by (unfold init_offdiag; rewrite tri_closed; auto).
  destruct (mll_cov_ok D ld off H1 H2') as (c & Ec & M & HC).
  exists ld, off, c. split; [auto|]. split; [auto|]. split; [auto|].
  eapply meq_trans; [apply meq_sym, HC|]. eapply meq_trans; [|apply HL].
  intros i j Hi Hj. unfold mmul. apply bsum_ext. intros k Hk. unfold mT. rewrite !E by auto. reflexivity.
Qed.

Theorem C105_wrong_size : forall D log_diag_L L_offdiag, length L_offdiag <> init_offdiag D ->
  mll_cov D log_diag_L L_offdiag = Err RuntimeError.
Proof. exact mll_cov_bad. Qed.

(** New posteriors: zero mean, covariance (1e-4 + 1/D) I and (1e-3 + 1/D)^2 I. *)
Theorem C105_new_posteriors : forall D, (0 < D)%nat ->
  ndc_ok D (new_post_diag D) /\ nc_mean (new_post_diag D) = vzeros D /\
  (forall i, (i < D)%nat -> nth i (nc_cov (new_post_diag D)) 0 = / 10000 + / INR D) /\
  exists p, new_post_full D = Ok p /\ nf_ok D p /\ nf_mean p = vzeros D /\
    meq D (mget (nf_cov p)) (fun i j => if Nat.eqb i j then (/ 1000 + / INR D) ^ 2 else 0).
Proof.
  intros D HD. assert (HR : 0 < INR D) by (apply lt_0_INR; lia).
  assert (Lz : forall n, length (vzeros n) = n) by (intros; unfold vzeros; apply repeat_length).
  assert (Ex : forall i, (i < D)%nat -> exp (nth i (map (fun v => v - ln (INR D)) (vzeros D)) 0) = / INR D).
  { intros i Hi. rewrite (map_nth_R (fun v => v - ln (INR D))) by (rewrite Lz; lia).
    unfold vzeros. rewrite nth_repeat. replace (0 - ln (INR D)) with (- ln (INR D)) by ring.
    rewrite exp_Ropp, exp_ln; auto. }
  split; [|split; [|split]].
  - split; [apply Lz|]. split; [cbn [nc_cov new_post_diag]; unfold mld_diag_cov; rewrite !map_length; apply Lz|].
    cbn [nc_cov new_post_diag]. eapply Forall_impl; [|apply C105_diagonal_positive]. cbn beta. intros; lra.
  - reflexivity.
  - intros i Hi. cbn [nc_cov new_post_diag]. unfold mld_diag_cov. rewrite map_nth_R by (rewrite map_length, Lz; lia).
    now rewrite Ex.
  - destruct (mll_cov_ok D (map (fun v => v - ln (INR D)) (vzeros D)) (vzeros (init_offdiag D))) as (c & E & M & HL).
    + rewrite map_length. apply Lz.
    + apply Lz.
    + unfold new_post_full. rewrite E. cbn [bindr]. eexists. split; [reflexivity|]. split.
      * split; [apply Lz|]. split; [exact M|]. eapply is_chol_posdef; eauto.
      * split; [reflexivity|]. cbn [nf_cov]. intros i j Hi Hj. rewrite <- (proj2 (proj2 HL)) by auto.
        unfold mmul, mT.
        rewrite (bsum_ext D _ (fun k => if Nat.eqb k i then (if Nat.eqb i j then (/ 1000 + / INR D) ^ 2 else 0) else 0)).
        { rewrite bsum_pick by auto. reflexivity. }
        intros k Hk. assert (EM : forall a b, (a < D)%nat -> (b < D)%nat ->
          mfactor (map (fun v => v - ln (INR D)) (vzeros D)) (vzeros (init_offdiag D)) a b = if Nat.eqb a b then / 1000 + / INR D else 0).
        { intros a b Ha Hb. unfold mfactor. destruct (Nat.ltb_spec b a).
          - destruct (Nat.eqb_spec a b); [lia|]. unfold vzeros. apply nth_repeat.
          - destruct (Nat.eqb_spec a b); [|reflexivity]. now rewrite Ex. }
        rewrite !EM by auto. rewrite (Nat.eqb_sym k i). destruct (Nat.eqb_spec i k) as [->|]; [|ring].
        rewrite (Nat.eqb_sym j k). destruct (Nat.eqb_spec k j); ring.
Qed.

Example C105_example : exists c, mll_cov 2 [0; 0] [3] = Ok c /\
  mget c 0 0 = (/ 1000 + 1) ^ 2 /\ mget c 1 0 = 3 * (/ 1000 + 1) /\ mget c 1 1 = 9 + (/ 1000 + 1) ^ 2.
Proof.
  destruct (mll_cov_ok 2 [0; 0] [3] eq_refl eq_refl) as (c & E & M & _ & _ & HC). exists c. split; [exact E|].
  rewrite <- !HC by lia. unfold mmul, mT, bsum, sumf, mfactor. cbn. rewrite exp_0. repeat split; ring.
Qed.

(** ** C113: samples *)
Theorem C113_diagonal : forall D p eps, ndc_ok D p -> length eps = D ->
  exists x, ndc_sample p [eps] = [x] /\ length x = D /\
    (forall i, (i < D)%nat -> nth i x 0 = nth i (nc_mean p) 0 + sqrt (nth i (nc_cov p) 0) * nth i eps 0) /\
    sumf (fun i => ln (gauss_pdf (nth i x 0) (nth i (nc_mean p) 0) (/ nth i (nc_cov p) 0))) (seq 0 D) =
    std_normal_logpdf eps - 1/2 * sumf ln (nc_cov p).
Proof.
  intros D p eps Hp He. assert (Hp' := Hp). destruct Hp' as (H1 & H2 & H3). eexists. split; [reflexivity|].
  assert (Lx : length (map2 Rplus (nc_mean p) (map2 (fun s e => sqrt s * e) (nc_cov p) eps)) = D) by (rewrite !map2_length; lia).
  split; [exact Lx|]. split.
  - intros i Hi. now apply (ndc_sample_nth p eps i D).
  - rewrite <- (ndc_forward_value D p) by auto. apply (ndc_sample_density D p eps Hp He).
Qed.

Theorem C113_full : forall D p L eps, nf_ok D p -> is_chol D (mget (nf_cov p)) L -> length eps = D ->
  exists x, nf_sample p [eps] = Ok [x] /\ length x = D /\
    (forall i, (i < D)%nat -> nth i x 0 = nth i (nf_mean p) 0 + bsum D (fun k => L i k * nth k eps 0)) /\
    nf_forward true p (nf_suff_stats x) = Ok (std_normal_logpdf eps - bsum D (fun i => ln (L i i))).
Proof.
  intros D p L eps Hp HL He. assert (Hp' := Hp). destruct Hp' as (H1 & H2 & H3).
  rewrite (nf_sample_ok D p L) by auto. cbn [map]. eexists. split; [reflexivity|].
  split; [rewrite map2_length, map_length, seq_length; lia|]. split.
  - intros i Hi. rewrite map2_nth_R by (rewrite ?map_length, ?seq_length; lia). rewrite map_seq_nth by auto. f_equal.
    apply sumf_ext. intros k _. ring.
  - apply (nf_sample_density D p L eps Hp HL He).
Qed.

(** Averages over draws with zero mean and identity second moment have the
    moments of the distribution. *)
Theorem C113_moments : forall D p L noise, nf_ok D p -> is_chol D (mget (nf_cov p)) L -> noise <> [] ->
  Forall (fun eps => length eps = D) noise ->
  (forall k, (k < D)%nat -> mean_of (fun eps => nth k eps 0) noise = 0) ->
  (forall k l, (k < D)%nat -> (l < D)%nat -> mean_of (fun eps => nth k eps 0 * nth l eps 0) noise = if Nat.eqb k l then 1 else 0) ->
  exists xs, nf_sample p noise = Ok xs /\
    (forall i, (i < D)%nat -> mean_of (fun x => nth i x 0) xs = nth i (nf_mean p) 0) /\
    (forall i j, (i < D)%nat -> (j < D)%nat ->
      mean_of (fun x => (nth i x 0 - nth i (nf_mean p) 0) * (nth j x 0 - nth j (nf_mean p) 0)) xs = mget (nf_cov p) i j).
Proof.
  intros D p L noise Hp HL Hne Hl HM HC. assert (Hp' := Hp). destruct Hp' as (H1 & H2 & H3).
  rewrite (nf_sample_ok D p L) by auto. eexists. split; [reflexivity|].
  set (x := fun eps : list R => map2 Rplus (nf_mean p) (map (fun i => sumf (fun k => nth k eps 0 * L i k) (seq 0 D)) (seq 0 D))).
  assert (Ex : forall eps i, (i < D)%nat -> nth i (x eps) 0 = sumf (fun k => L i k * nth k eps 0) (seq 0 D) + nth i (nf_mean p) 0).
  { intros eps i Hi. unfold x. rewrite map2_nth_R by (rewrite ?map_length, ?seq_length; lia). rewrite map_seq_nth by auto.
    rewrite Rplus_comm. f_equal. apply sumf_ext. intros; ring. }
  assert (N0 : INR (length noise) <> 0) by (destruct noise; [contradiction|apply not_0_INR; discriminate]).
  split.
  - intros i Hi. rewrite mean_of_map. rewrite (mean_of_ext _ _ noise (fun eps _ => Ex eps i Hi)).
    rewrite mean_of_const by auto.
    replace (mean_of (fun a => sumf (fun k => L i k * nth k a 0) (seq 0 D)) noise) with 0; [ring|].
    unfold mean_of. rewrite sumf_swap. symmetry. unfold Rdiv. rewrite <- sumf_scal_r.
    transitivity (sumf (fun _ : nat => 0) (seq 0 D)); [|apply sumf_zero; auto].
    apply sumf_ext. intros k Hk. apply in_seq in Hk. rewrite sumf_scal_l. specialize (HM k ltac:(lia)). unfold mean_of, Rdiv in HM.
    rewrite Rmult_assoc, HM. ring.
  - intros i j Hi Hj. rewrite mean_of_map.
    rewrite (mean_of_ext _ (fun eps => sumf (fun k => sumf (fun l => L i k * L j l * (nth k eps 0 * nth l eps 0)) (seq 0 D)) (seq 0 D))).
    + rewrite <- (proj2 (proj2 HL)) by auto. unfold mmul, mT, bsum. unfold mean_of. rewrite sumf_swap. unfold Rdiv.
      rewrite <- sumf_scal_r. apply sumf_ext. intros k Hk. apply in_seq in Hk.
      rewrite sumf_swap, <- sumf_scal_r.
      rewrite (sumf_ext _ (fun l => if Nat.eqb l k then L i k * L j k else 0)).
      * change (sumf ?f (seq 0 D)) with (bsum D f). rewrite bsum_pick by lia. reflexivity.
      * intros l Hll. apply in_seq in Hll. rewrite sumf_scal_l. specialize (HC k l ltac:(lia) ltac:(lia)). unfold mean_of, Rdiv in HC.
        rewrite Rmult_assoc, HC, (Nat.eqb_sym k l). destruct (Nat.eqb_spec l k) as [->|]; ring.
    + intros eps _. rewrite !(Ex eps) by auto.
      set (a := sumf (fun k => L i k * nth k eps 0) (seq 0 D)). set (b := sumf (fun k => L j k * nth k eps 0) (seq 0 D)).
      replace ((a + nth i (nf_mean p) 0 - nth i (nf_mean p) 0) * (b + nth j (nf_mean p) 0 - nth j (nf_mean p) 0)) with (a * b) by ring.
      unfold a. rewrite <- sumf_scal_r. apply sumf_ext. intros k _. unfold b. rewrite <- sumf_scal_l. apply sumf_ext. intros l _. ring.
Qed.

Example C113_example : ndc_sample {| nc_mean := [1; 2]; nc_cov := [1; 4] |} [[1; 0]; [0; -1]] = [[2; 2]; [1; 0]].
Proof.
  unfold ndc_sample. cbn [map map2 nc_mean nc_cov]. rewrite sqrt_1. replace 4 with (2 * 2) by ring. rewrite sqrt_square by lra.
  repeat (f_equal; try lra).
Qed.

(** ** C106: order of the samples produced by the transforms *)
Theorem C106_affine : forall ind out s_W s_b samples S0, (0 < ind)%nat -> (0 < out)%nat ->
  Forall (fun w => length w = (ind * out)%nat) s_W -> Forall (fun b => length b = out) s_b ->
  samples <> [] -> Forall (fun hs => length hs = S0 /\ Forall (fun h => length h = ind) hs) samples ->
  rvecs_from_samples (affine_forward ind out s_W s_b) samples =
  Ok (map (fun hs => flat_map (fun h => map (fun wb => affine ind out (fst wb) (snd wb) h) (combine s_W s_b)) hs) samples).
Proof.
  intros ind out sW sb samples S0 Hi Ho HW Hb Hne HS.
  rewrite (rvecs_from_samples_ok (fun h => map (fun wb => affine ind out (fst wb) (snd wb) h) (combine sW sb)) _ samples S0
     (length (combine sW sb))); auto.
  - rewrite affine_forward_ok; auto.
    + f_equal. apply map_ext. intros x. apply (map2_combine (fun w b => affine ind out w b x)).
    + apply Forall_concat. eapply Forall_impl; [|exact HS]. cbn beta. intros; tauto.
  - eapply Forall_impl; [|exact HS]. cbn beta. intros; tauto.
  - intros. apply map_length.
Qed.

Theorem C106_linear : forall ind out s_W samples S0, (0 < ind)%nat -> (0 < out)%nat ->
  Forall (fun w => length w = (ind * out)%nat) s_W ->
  samples <> [] -> Forall (fun hs => length hs = S0 /\ Forall (fun h => length h = ind) hs) samples ->
  rvecs_from_samples (linear_forward ind out s_W) samples =
  Ok (map (fun hs => flat_map (fun h => map (fun w => linear ind out w h) s_W) hs) samples).
Proof.
  intros ind out sW samples S0 Hi Ho HW Hne HS.
  rewrite (rvecs_from_samples_ok (fun h => map (fun w => linear ind out w h) sW) _ samples S0 (length sW)); auto.
  - rewrite linear_forward_ok; auto. apply Forall_concat. eapply Forall_impl; [|exact HS]. cbn beta. intros; tauto.
  - eapply Forall_impl; [|exact HS]. cbn beta. intros; tauto.
  - intros. apply map_length.
Qed.

(** The hierarchical transform: the parent subspace generates the weights
    (first in*out coordinates) and the bias (last out coordinates). *)
Theorem C106_hierarchical : forall pin ind out s_W s_b (h0s : list (list R)) samples S0,
  (0 < pin)%nat -> (0 < ind)%nat -> (0 < out)%nat ->
  Forall (fun w => length w = (pin * ((ind + 1) * out))%nat) s_W -> Forall (fun b => length b = ((ind + 1) * out)%nat) s_b ->
  h0s <> [] -> Forall (fun h => length h = pin) h0s ->
  samples <> [] -> Forall (fun hs => length hs = S0 /\ Forall (fun h => length h = ind) hs) samples ->
  exists rvec,
  rvecs_from_samples (affine_forward pin ((ind + 1) * out) s_W s_b) [h0s] = Ok rvec /\
  let theta := flat_map (fun h0 => map (fun wb => affine pin ((ind + 1) * out) (fst wb) (snd wb) h0) (combine s_W s_b)) h0s in
  rvecs_from_samples (hier_forward ind out rvec) samples =
  Ok (map (fun hs => flat_map (fun h => map (fun t => affine ind out (firstn (ind * out) t) (skipn (ind * out) t) h) theta) hs) samples).
Proof.
  intros pin ind out sW sb h0s samples S0 Hp Hi Ho HW Hb H0 Hh0 Hne HS.
  eexists. split; [apply (C106_affine pin ((ind + 1) * out) sW sb [h0s] (length h0s)); auto; [nia|discriminate]|].
  cbn [map]. set (theta := flat_map _ h0s).
  rewrite (rvecs_from_samples_ok (fun h => map (fun t => affine ind out (firstn (ind * out) t) (skipn (ind * out) t) h) theta) _ samples S0 (length theta)); auto.
  - rewrite hier_forward_ok; auto.
    + cbn [concat]. now rewrite app_nil_r.
    + constructor; [|constructor]. apply Forall_forall. intros r Hr. unfold theta in Hr. apply in_flat_map in Hr.
      destruct Hr as (h & _ & Hr). apply in_map_iff in Hr. destruct Hr as (wb & <- & _). apply affine_length.
    + apply Forall_concat. eapply Forall_impl; [|exact HS]. cbn beta. intros; tauto.
  - eapply Forall_impl; [|exact HS]. cbn beta. intros; tauto.
  - intros. apply map_length.
Qed.

Theorem C106_hierarchical_assertion : forall ind out rvec X r, In r (concat rvec) -> length r <> ((ind + 1) * out)%nat ->
  hier_forward ind out rvec X = Err OtherError.
Proof.
  intros ind out rvec X r Hin Hr. unfold hier_forward.
  destruct (forallb _ (concat rvec)) eqn:E; [|reflexivity]. rewrite forallb_forall in E. specialize (E r Hin).
  apply Nat.eqb_eq in E. contradiction.
Qed.

Example C106_example : rvecs_from_samples (affine_forward 1 2 [[1; 2]; [10; 20]] [[0; 0]; [5; 5]]) [[[1]; [2]]; [[3]; [4]]] =
  Ok [[[1; 2]; [15; 25]; [2; 4]; [25; 45]]; [[3; 6]; [35; 65]; [4; 8]; [45; 85]]].
Proof.
  rewrite (C106_affine 1 2 _ _ _ 2); [|lia|lia|repeat constructor|repeat constructor|discriminate|repeat constructor].
  unfold affine, sumf. cbn. repeat (f_equal; try lra).
Qed.

(** ** C107: real vectors of the parameters *)
Theorem C107_decomposition : forall params v, length v = svec_dim params ->
  exists sv, real_shape params sv /\ flat sv = v /\ forall sv', real_shape params sv' -> flat sv' = v -> sv' = sv.
Proof.
  intros params v H. destruct (real_shape_exists params v H) as (sv & H1 & H2). exists sv. split; [auto|]. split; [auto|].
  intros sv' H3 H4. apply (real_shape_unique params); auto. congruence.
Qed.

Theorem C107_pdf_vectors : forall params (grid : list (list svec)) S0,
  Forall sparam_ok params -> params <> [] -> grid <> [] -> (0 < S0)%nat ->
  Forall (fun svs => length svs = S0 /\ Forall (real_shape params) svs) grid ->
  pdfvecs_from_rvecs params (map (map flat) grid) = Ok (map (map (fun sv => flat (pdf_image params sv))) grid).
Proof. exact pdfvecs_from_rvecs_ok. Qed.

(** Each pdf of each parameter of each model gets the average of its own
    pdf-vectors. *)
Theorem C107_models : forall params (grid : list (list svec)) S0 p0,
  Forall sparam_ok params -> params <> [] -> grid <> [] -> (0 < S0)%nat ->
  Forall (fun svs => length svs = S0 /\ Forall (real_shape params) svs) grid ->
  exists pv ups, pdfvecs_from_rvecs params (map (map flat) grid) = Ok pv /\
    update_models (repeat params (length grid)) (map vmean pv) = Ok ups /\ length ups = length grid /\
    forall i k j d, (i < length grid)%nat -> (k < length params)%nat -> (j < sp_n (nth k params p0))%nat ->
      (d < sp_q (nth k params p0))%nat ->
      nth d (nth j (nth k (nth i ups []) []) []) 0 =
      mean_of (fun sv => nth d (sp_val (nth k params p0) (nth j (nth k sv []) [])) 0) (nth i grid []).
Proof.
  intros params grid S0 p0 Hok Hp Hne HS HG. assert (HG' := HG). rewrite Forall_forall in HG'.
  eexists. exists (map (fun svs => mean_sv params (map (pdf_image params) svs)) grid).
  split; [apply (pdfvecs_from_rvecs_ok params grid S0); auto|]. split; [|split].
  - replace (map vmean (map (map (fun sv => flat (pdf_image params sv))) grid))
      with (map (fun svs => vmean (map flat svs)) (map (map (pdf_image params)) grid)).
    + replace (length grid) with (length (map (map (pdf_image params)) grid)) by apply map_length.
      rewrite update_models_ok; [now rewrite map_map|].
      intros svs Hin. apply in_map_iff in Hin. destruct Hin as (svs0 & <- & Hin). destruct (HG' svs0 Hin) as (L & F). split.
      * destruct svs0; [cbn in L; lia|discriminate].
      * apply Forall_map. eapply Forall_impl; [|exact F]. cbn beta. intros. now apply pdf_image_shape.
    + rewrite !map_map. apply map_ext. intros svs. now rewrite map_map.
  - apply map_length.
  - intros i k j d Hi Hk Hj Hd.
    rewrite (nth_indep _ [] (mean_sv params (map (pdf_image params) []))) by (rewrite map_length; auto).
    rewrite (map_nth (fun svs => mean_sv params (map (pdf_image params) svs))).
    destruct (HG' (nth i grid []) (nth_In _ _ Hi)) as (L & F). rewrite Forall_forall in F.
    rewrite (mean_sv_nth params _ k j p0) by auto. rewrite map_map.
    rewrite (vmean_nth _ (sp_q (nth k params p0))).
    + rewrite mean_of_map. apply mean_of_ext. intros sv Hsv. rewrite (pdf_image_nth params sv k j p0); auto.
    + destruct (nth i grid []); [cbn in L; lia|discriminate].
    + apply Forall_map, Forall_forall. intros sv Hsv. rewrite (pdf_image_nth params sv k j p0) by auto.
      assert (Hpk : In (nth k params p0) params) by now apply nth_In.
      rewrite Forall_forall in Hok. apply sp_val_length; auto.
      specialize (F sv Hsv). clear - F Hk Hj. revert k Hk Hj. induction F as [|p bs ps sv (A & B) F IH]; intros [|k] Hk Hj; cbn in Hk; try lia.
      * cbn [nth] in *. rewrite Forall_forall in B. apply B, nth_In. lia.
      * cbn [nth] in *. apply IH; auto. lia.
    + auto.
Qed.

Definition ex_square : sparam :=
  {| sp_n := 2; sp_dim := 1; sp_q := 2; sp_pdf := fun r => Ok [nth 0 r 0; nth 0 r 0 * nth 0 r 0] |}.
Definition ex_double : sparam :=
  {| sp_n := 1; sp_dim := 2; sp_q := 1; sp_pdf := fun r => Ok [nth 0 r 0 + nth 1 r 0] |}.

Example C107_example : bindr (pdfvecs_from_rvecs [ex_square; ex_double] [[[1; 2; 3; 4]; [3; 2; 5; 6]]])
    (fun pv => update_models [[ex_square; ex_double]] (map vmean pv)) = Ok [[[[2; 5]; [2; 4]]; [[9]]]].
Proof.
  cbn. unfold vmean, vscale, colsum. cbn. repeat (f_equal; try lra).
Qed.

(** ** C108: objective *)
Lemma map_list_prod {A B C} (f : A -> B -> C) l m : map (fun ab => f (fst ab) (snd ab)) (list_prod l m) = flat_map (fun a => map (f a) m) l.
Proof.
  induction l as [|a l IH]; [reflexivity|]. cbn [list_prod flat_map]. rewrite map_app, map_map, IH. reflexivity.
Qed.

(** The objective is a Monte Carlo estimate, over the pairs (latent sample,
    parameters of the transform), of the expected log-likelihood, minus that
    of the divergence log q - log p of the latent variable. *)
Theorem C108_objective : forall ind out s_W s_b params prior posts s_h (stats : list svec) S0 q (sv_of : list R -> svec),
  Forall sparam_ok params -> params <> [] -> out = svec_dim params -> (0 < ind)%nat -> (0 < out)%nat ->
  Forall (fun w => length w = (ind * out)%nat) s_W -> Forall (fun b => length b = out) s_b -> combine s_W s_b <> [] ->
  s_h <> [] -> (0 < S0)%nat -> Forall (fun hs => length hs = S0 /\ Forall (fun h => length h = ind) hs) s_h ->
  Forall (ndc_ok ind) posts -> length posts = length s_h ->
  (forall h, length h = ind -> length (lp_suff prior h) = q) -> length (lp_nat prior) = q ->
  Forall (pdf_shape params) stats -> length stats = length s_h ->
  (forall v, length v = svec_dim params -> real_shape params (sv_of v) /\ flat (sv_of v) = v) ->
  exists vals pv,
  gsm_llh (affine_forward ind out s_W s_b) params prior (entropy_diag posts s_h) s_h (gsm_suff_stats stats) = Ok (vals, pv) /\
  length vals = length s_h /\
  forall i, (i < length s_h)%nat ->
  let hs := nth i s_h [] in
  let post := nth i posts {| nc_mean := []; nc_cov := [] |} in
  nth i vals 0 =
  mean_of (fun hwb => sv_dot (pdf_image params (sv_of (affine ind out (fst (snd hwb)) (snd (snd hwb)) (fst hwb)))) (nth i stats []))
          (list_prod hs (combine s_W s_b))
  - mean_of (fun h => sumf (fun d => ln (gauss_pdf (nth d h 0) (nth d (nc_mean post) 0) (/ nth d (nc_cov post) 0))) (seq 0 ind)
                      - lp_llh prior (lp_suff prior h)) hs.
Proof.
  intros ind out sW sb params prior posts s_h stats S0 q sv_of Hok Hp Eo Hi Ho HW Hb Hne Hh HS HL HP HPl Hq1 Hq2 Hst Hstl Hsv.
  set (F := fun h => map (fun wb => affine ind out (fst wb) (snd wb) h) (combine sW sb)).
  assert (HL1 : Forall (fun hs => length hs = S0) s_h) by (eapply Forall_impl; [|exact HL]; cbn beta; intros; tauto).
  assert (HL2 : Forall (fun hs => Forall (fun h => length h = ind) hs) s_h) by (eapply Forall_impl; [|exact HL]; cbn beta; intros; tauto).
  assert (HP0 : (0 < length (combine sW sb))%nat) by (destruct (combine sW sb); [contradiction|cbn; lia]).
  eexists. eexists. split.
  - apply (gsm_llh_ok F sv_of _ params prior _ s_h stats S0 (length (combine sW sb))); auto.
    + intros h. apply map_length.
    + rewrite affine_forward_ok; auto.
      * f_equal. apply map_ext. intros x. apply (map2_combine (fun w b => affine ind out w b x)).
      * now apply Forall_concat.
    + intros h r _ Hr. unfold F in Hr. apply in_map_iff in Hr. destruct Hr as (wb & <- & _). rewrite affine_length. auto.
  - assert (Hne' : Forall (fun hs => hs <> []) s_h).
    { eapply Forall_impl; [|exact HL1]. cbn beta. intros hs Hl ->. cbn in Hl. lia. }
    rewrite (xentropy_ok prior s_h q); auto.
    2:{ intros hs h H1 H2. rewrite Forall_forall in HL2. specialize (HL2 hs H1). rewrite Forall_forall in HL2. auto. }
    rewrite (entropy_diag_ok ind posts s_h); auto.
    2:{ apply Forall_forall. intros hs Hin. rewrite Forall_forall in Hne', HL2. auto. }
    assert (LV : length (vsub (map (fun hs => - mean_of (fun h => lp_llh prior (lp_suff prior h)) hs) s_h)
       (map2 (fun q0 hs => - mean_of (fun h => ndc_forward q0 (ndc_suff_stats h)) hs) posts s_h)) = length s_h).
    { unfold vsub. rewrite map2_length, map_length, map2_length. lia. }
    split; [unfold vsub at 1; rewrite map2_length, map2_length, LV; lia|].
    intros i Hii hs post. unfold vsub at 1. rewrite map2_nth_R by (rewrite ?map2_length, ?LV; lia). f_equal.
    + rewrite (nth_map2 _ s_h stats i [] []) by lia. fold hs. unfold F.
      rewrite <- (map_list_prod (fun h (wb : list R * list R) => affine ind out (fst wb) (snd wb) h)).
      rewrite mean_of_map. reflexivity.
    + unfold vsub. rewrite map2_nth_R by (rewrite ?map_length, ?map2_length; lia).
      rewrite (nth_indep _ 0 ((fun hs => - mean_of (fun h => lp_llh prior (lp_suff prior h)) hs) [])) by (rewrite map_length; auto).
      rewrite (map_nth (fun hs => - mean_of (fun h => lp_llh prior (lp_suff prior h)) hs)).
      rewrite (nth_map2 _ posts s_h i {| nc_mean := []; nc_cov := [] |} []) by lia. fold hs. fold post.
      rewrite <- mean_of_minus.
      assert (Hpost : ndc_ok ind post) by (rewrite Forall_forall in HP; apply HP, nth_In; lia).
      assert (Hhs : Forall (fun h => length h = ind) hs) by (rewrite Forall_forall in HL2; apply HL2, nth_In; lia).
      rewrite (mean_of_ext (fun h => ndc_forward post (ndc_suff_stats h))
        (fun h => sumf (fun d => ln (gauss_pdf (nth d h 0) (nth d (nc_mean post) 0) (/ nth d (nc_cov post) 0))) (seq 0 ind))).
      * ring.
      * intros h Hin. apply ndc_forward_value; auto. rewrite Forall_forall in Hhs. auto.
Qed.

(** Full covariance posteriors *)
Theorem C108_full_entropy : forall D posts s_h, Forall (nf_ok D) posts -> length posts = length s_h ->
  Forall (fun hs => hs <> [] /\ Forall (fun h => length h = D) hs) s_h ->
  exists ent, entropy_full posts s_h = Ok ent /\ length ent = length s_h /\
    forall i, (i < length s_h)%nat -> exists logq,
      (forall h, In h (nth i s_h []) -> nf_forward true (nth i posts {| nf_mean := []; nf_cov := [] |}) (nf_suff_stats h) = Ok (logq h)) /\
      nth i ent 0 = - mean_of logq (nth i s_h []).
Proof.
  intros D posts s_h HP. revert s_h. induction HP as [|p posts Hp HP IH]; intros [|hs s_h] HL H; cbn in HL; try discriminate.
  - exists []. split; [reflexivity|]. split; [reflexivity|]. cbn. intros; lia.
  - inversion H as [|? ? (A & B) H']; subst. destruct (IH s_h ltac:(lia) H') as (ent & E & L & V).
    destruct (nf_forward_mean D p hs Hp A B) as (g & G1 & G2).
    exists (- mean_of g hs :: ent). unfold entropy_full in *. cbn [combine mapM fst snd]. rewrite G2. cbn [bindr]. rewrite E.
    split; [reflexivity|]. split; [cbn; lia|]. intros [|i] Hi.
    + exists g. cbn [nth]. auto.
    + cbn [nth]. apply V. cbn in Hi. lia.
Qed.

(** One diagonal Gaussian pdf: the log-likelihood of the weighted frames, up to
    the constant the objective leaves out. *)
Definition nd_sparam (n d : nat) : sparam :=
  {| sp_n := n; sp_dim := 2 * d; sp_q := 2 * d + 2; sp_pdf := fun r => Ok (nd_pdfvec_from_rvec r) |}.

Theorem C108_gaussian_parameter : forall n d, (0 < n)%nat -> (0 < d)%nat -> sparam_ok (nd_sparam n d).
Proof.
  intros n d Hn Hd. unfold sparam_ok. cbn [sp_n sp_dim sp_q sp_pdf nd_sparam]. split; [lia|]. split; [lia|]. split; [lia|].
  intros r Hr. eexists. split; [reflexivity|].
  rewrite <- (firstn_skipn d r). rewrite (nd_pdfvec_natural d).
  - rewrite (nd_natural_length d); [lia| |].
    + rewrite firstn_length. lia.
    + rewrite map_length, skipn_length. lia.
  - rewrite firstn_length. lia.
  - rewrite skipn_length. lia.
Qed.

Theorem C108_gaussian_likelihood : forall d (ml : list (list R * list R)) (datas : list wdata),
  Forall (fun ml => length (fst ml) = d /\ length (snd ml) = d) ml -> length datas = length ml ->
  Forall (fun data => forall gx, In gx data -> length (snd gx) = d) datas ->
  sv_dot (pdf_image [nd_sparam (length ml) d] [map (fun ml => fst ml ++ snd ml) ml])
         [map (wstats (2 * d + 2) nd_suff_stats) datas] =
  rsum (map2 (fun ml data => sumf (fun gx => fst gx *
     (sumf (fun i => ln (gauss_pdf (nth i (snd gx) 0) (nth i (fst ml) 0) (exp (nth i (snd ml) 0)))) (seq 0 d)
      + 1/2 * INR d * ln (2 * PI))) data) ml datas).
Proof.
  intros d ml datas Hml HL Hd. unfold pdf_image. cbn [map2]. unfold sv_dot. cbn [map2].
  change (rsum [?a]) with (a + 0). rewrite Rplus_0_r. f_equal. rewrite map_map. unfold sp_val. cbn [sp_pdf nd_sparam].
  rewrite map2_map_l, map2_map_r. apply map2_ext_in. intros i (m, lp) data E1 E2.
  apply nth_error_In in E1, E2. rewrite Forall_forall in Hml, Hd. destruct (Hml _ E1) as (H1 & H2). cbn [fst snd] in *.
  specialize (Hd _ E2). rewrite (nd_pdfvec_natural d) by auto.
  assert (LN : length (nd_natural m (map exp lp)) = (2 * d + 2)%nat) by (rewrite (nd_natural_length d); rewrite ?map_length; lia).
  assert (LS : forall gx, In gx data -> length (nd_suff_stats (snd gx)) = (2 * d + 2)%nat).
  { intros gx Hg. unfold nd_suff_stats. rewrite !app_length, map_length, (Hd gx Hg). cbn. lia. }
  rewrite dot_nth by (rewrite wstats_length; auto; lia). rewrite LN.
  rewrite (sumf_ext _ (fun k => sumf (fun gx => fst gx * (nth k (nd_suff_stats (snd gx)) 0 * nth k (nd_natural m (map exp lp)) 0)) data)).
  - rewrite sumf_swap. apply sumf_ext. intros gx Hg. rewrite sumf_scal_l. f_equal.
    assert (X := nd_llh_natural d m (map exp lp) (snd gx) H1 ltac:(rewrite map_length; lia) (Hd gx Hg)
      ltac:(apply Forall_map, Forall_forall; intros; apply exp_pos)).
    unfold nd_llh in X. rewrite dot_nth in X by (rewrite LN; auto). rewrite (LS gx Hg) in X.
    rewrite (sumf_ext (fun i => ln (gauss_pdf (nth i (snd gx) 0) (nth i m 0) (exp (nth i lp 0))))
      (fun i => ln (gauss_pdf (nth i (snd gx) 0) (nth i m 0) (nth i (map exp lp) 0)))).
    + rewrite <- X. ring.
    + intros k Hk. apply in_seq in Hk. now rewrite map_nth_R by lia.
  - intros k Hk. apply in_seq in Hk. rewrite wstats_nth by (auto; lia). rewrite Rmult_comm, <- sumf_scal_r. apply sumf_ext. intros; ring.
Qed.

Example C108_example :
  gsm_llh (affine_forward 1 1 [[2]] [[1]]) [{| sp_n := 1; sp_dim := 1; sp_q := 1; sp_pdf := fun r => Ok r |}]
    {| lp_suff := fun h => h; lp_nat := [7]; lp_const := 0 |} [1] [[[1]; [3]]] (gsm_suff_stats [[[[10]]]]) =
  Ok ([50 - (- 14 - 1)], [[5]]).
Proof.
  unfold gsm_llh, rvecs_from_samples, pdfvecs_from_rvecs, xentropy, lp_llh, vmean, gsm_suff_stats, dot, vsub, vscale, colsum. cbn.
  repeat (f_equal; try lra).
Qed.

(** ** C109: sets of subspace models *)
Theorem C109_values : forall ind mind out s_W s_b s_D params local_kl s_h s_m (stats : list svec) S0 (sv_of : list R -> svec),
  Forall sparam_ok params -> params <> [] -> out = svec_dim params -> (0 < ind)%nat -> (0 < mind)%nat -> (0 < out)%nat ->
  Forall (fun w => length w = (ind * out)%nat) s_W -> Forall (fun b => length b = out) s_b ->
  Forall (fun w => length w = (mind * out)%nat) s_D -> s_D <> [] -> length s_W = length s_D -> length s_b = length s_D ->
  s_h <> [] -> s_m <> [] -> (0 < S0)%nat ->
  Forall (fun hs => length hs = S0 /\ Forall (fun h => length h = ind) hs) s_h ->
  Forall (fun hs => length hs = S0 /\ Forall (fun h => length h = mind) hs) s_m ->
  Forall (pdf_shape params) stats -> length stats = length s_h -> length local_kl = length s_h ->
  (forall v, length v = svec_dim params -> real_shape params (sv_of v) /\ flat (sv_of v) = v) ->
  exists vals pv,
  gsmset_llh (affine_forward ind out s_W s_b) (linear_forward mind out s_D) params local_kl s_h s_m (gsm_suff_stats stats) = Ok (vals, pv) /\
  length vals = length s_h /\ length pv = length s_m /\
  forall n c, (n < length s_h)%nat -> (c < length s_m)%nat ->
  let rs := flat_map (fun h => map (fun wb => affine ind out (fst wb) (snd wb) h) (combine s_W s_b)) (nth n s_h []) in
  let ms := flat_map (fun h => map (fun w => linear mind out w h) s_D) (nth c s_m []) in
  let pdf rm := pdf_image params (sv_of (vadd (fst rm) (snd rm))) in
  nth c (nth n vals []) 0 = mean_of (fun rm => sv_dot (pdf rm) (nth n stats [])) (combine rs ms) - nth n local_kl 0 /\
  nth n (nth c pv []) [] = vmean (map (fun rm => flat (pdf rm)) (combine rs ms)).
Proof.
  intros ind mind out sW sb sD params kl s_h s_m stats S0 sv_of Hok Hp Eo Hi Hmi Ho HW Hb HD HDne E1 E2 Hh Hm HS HL HLm Hst Hstl Hkl Hsv.
  set (F := fun h => map (fun wb => affine ind out (fst wb) (snd wb) h) (combine sW sb)).
  set (G := fun h => map (fun w => linear mind out w h) sD).
  assert (HP0 : (0 < length sD)%nat) by (destruct sD; [contradiction|cbn; lia]).
  eexists. eexists. split.
  - apply (gsmset_llh_ok F G sv_of _ _ params kl s_h s_m stats S0 (length sD)); auto.
    + eapply Forall_impl; [|exact HL]; cbn beta; intros; tauto.
    + eapply Forall_impl; [|exact HLm]; cbn beta; intros; tauto.
    + intros h. unfold F. rewrite map_length, combine_length. lia.
    + intros h. apply map_length.
    + rewrite affine_forward_ok; auto.
      * f_equal. apply map_ext. intros x. apply (map2_combine (fun w b => affine ind out w b x)).
      * apply Forall_concat. eapply Forall_impl; [|exact HL]; cbn beta; intros; tauto.
    + rewrite linear_forward_ok; auto. apply Forall_concat. eapply Forall_impl; [|exact HLm]; cbn beta; intros; tauto.
    + intros h r _ Hr. unfold F in Hr. apply in_map_iff in Hr. destruct Hr as (wb & <- & _). rewrite affine_length. auto.
    + intros h r _ Hr. unfold G in Hr. apply in_map_iff in Hr. destruct Hr as (wb & <- & _). unfold linear. rewrite map_length, seq_length. auto.
  - split; [now rewrite map_length, seq_length|]. split; [apply map_length|].
    intros n c Hn Hc rs ms pdf. split.
    + rewrite (seq_map_nth _ _ n []) by auto.
      match goal with |- nth c (map ?f s_m) 0 = _ => rewrite (nth_indep _ 0 (f [])) by (rewrite map_length; auto); rewrite (map_nth f) end.
      unfold vsub. rewrite map2_nth_R by (rewrite ?map2_length; lia). f_equal.
      rewrite (nth_map2 _ s_h stats n [] []) by lia. reflexivity.
    + match goal with |- nth n (nth c (map ?f s_m) []) [] = _ => rewrite (nth_indep _ [] (f [])) by (rewrite map_length; auto); rewrite (map_nth f) end.
      match goal with |- nth n (map ?f s_h) [] = _ => rewrite (nth_indep _ [] (f [])) by (rewrite map_length; auto); rewrite (map_nth f) end.
      reflexivity.
Qed.

(** The pdf-vectors given to the models are averages over the classes, weighted
    by the responsibilities. *)
Theorem C109_responsibilities : forall q resps pdfvecs n d,
  Forall (Forall (fun v => length v = q)) pdfvecs -> Forall (fun rows => length rows = length resps) pdfvecs ->
  (n < length resps)%nat -> (d < q)%nat ->
  length (gsmset_resp_pdfvecs q resps pdfvecs) = length resps /\
  nth d (nth n (gsmset_resp_pdfvecs q resps pdfvecs) []) 0 =
  sumf (fun c => nth c (nth n resps []) 0 * nth d (nth n (nth c pdfvecs []) []) 0) (seq 0 (length pdfvecs)).
Proof.
  intros q resps pdfvecs n d H1 H2 Hn Hd. unfold gsmset_resp_pdfvecs. split; [now rewrite map_length, seq_length|].
  rewrite (seq_map_nth _ _ n []) by auto. rewrite colsum_nth; auto.
  - rewrite sumf_map. apply sumf_ext. intros c _. apply vscale_nth.
  - apply Forall_map, Forall_forall. intros c Hc. apply in_seq in Hc. rewrite vscale_length.
    rewrite Forall_forall in H1, H2. assert (I : In (nth c pdfvecs []) pdfvecs) by (apply nth_In; lia).
    specialize (H1 _ I). rewrite Forall_forall in H1. apply H1, nth_In. rewrite (H2 _ I). lia.
Qed.

Example C109_example :
  gsmset_llh (affine_forward 1 1 [[2]] [[1]]) (linear_forward 1 1 [[10]])
    [{| sp_n := 1; sp_dim := 1; sp_q := 1; sp_pdf := fun r => Ok r |}] [1; 2] [[[1]]; [[3]]] [[[1]]; [[2]]; [[3]]]
    (gsm_suff_stats [[[[1]]]; [[[100]]]]) =
  Ok ([[13 - 1; 23 - 1; 33 - 1]; [1700 - 2; 2700 - 2; 3700 - 2]], [[[13]; [17]]; [[23]; [27]]; [[33]; [37]]]).
Proof.
  unfold gsmset_llh, rvecs_from_samples, pdfvecs_from_rvecs, pair_rvecs, vmean, gsm_suff_stats, dot, vsub, vscale, colsum. cbn.
  repeat (f_equal; try lra).
Qed.

(** ** C110: views of a subspace parameter *)
Theorem C110_view_value_partial : forall pdfvec a b, (a <= b)%nat -> (b <= length pdfvec)%nat ->
  forall i, (i < b - a)%nat -> nth i (vw_value (sp_getitem pdfvec (a, b))) [] = nth (a + i) pdfvec [].
Proof.
  intros pdfvec a b Hab Hb i Hi. unfold vw_value, sp_getitem, gslice. cbn [vw_key vw_pdfvec fst snd].
  rewrite nth_firstn_lt by auto. rewrite nth_skipn. reflexivity.
Qed.

(** Writing through a view changes the rows of the view and no other. *)
Theorem C110_view_write_partial : forall pdfvec a b rows v', (a <= b)%nat -> (b <= length pdfvec)%nat ->
  vw_set (sp_getitem pdfvec (a, b)) rows = Ok v' ->
  vw_value v' = rows /\ length (vw_pdfvec v') = length pdfvec /\
  forall i, (i < a \/ b <= i)%nat -> nth i (vw_pdfvec v') [] = nth i pdfvec [].
Proof.
  intros pdfvec a b rows v' Hab Hb E. unfold vw_set, sp_getitem, vw_value in E. cbn [vw_key vw_pdfvec fst snd] in E.
  assert (LG : length (gslice a b pdfvec) = (b - a)%nat) by (unfold gslice; rewrite firstn_length, skipn_length; lia).
  rewrite LG in E. destruct (Nat.eqb_spec (length rows) (b - a)) as [L|]; [|discriminate]. injection E as <-.
  assert (LF : length (firstn a pdfvec) = a) by (rewrite firstn_length; lia).
  unfold vw_value. cbn [vw_key vw_pdfvec fst snd]. split; [|split].
  - apply gslice_mid; auto. lia.
  - rewrite !app_length, LF, skipn_length. lia.
  - intros i [Hi|Hi].
    + rewrite app_nth1 by lia. apply nth_firstn_lt. auto.
    + rewrite app_nth2 by lia. rewrite app_nth2 by lia. rewrite nth_skipn. f_equal. lia.
Qed.

(** A view of a view should hold a part of the rows of the view; natural_form
    should return the pdf-vectors. *)
Theorem C110_nested_view_refuted : exists pdfvec a b c d,
  (a <= b)%nat /\ (b <= length pdfvec)%nat /\ (c <= d)%nat /\ (d <= b - a)%nat /\
  vw_value (vw_getitem (sp_getitem pdfvec (a, b)) (c, d)) <> gslice c d (vw_value (sp_getitem pdfvec (a, b))).
Proof.
  exists [[1]; [2]; [3]], 1%nat, 3%nat, 0%nat, 1%nat. cbn. do 4 (split; [lia|]). intros H. injection H as H. lra.
Qed.

Theorem C110_natural_form_refuted : exists pdfvec,
  vw_natural_form (sp_getitem pdfvec (0%nat, length pdfvec)) <> sp_natural_form pdfvec /\
  vw_value (sp_getitem pdfvec (0%nat, length pdfvec)) = pdfvec.
Proof. exists [[1]; [2]]. split; [discriminate|reflexivity]. Qed.

Example C110_example : vw_set (sp_getitem [[1]; [2]; [3]] (1, 2)%nat) [[9]] =
  Ok {| vw_key := (1, 2)%nat; vw_pdfvec := [[1]; [9]; [3]] |}.
Proof. reflexivity. Qed.

Print Assumptions C105_full_positive_definite.
Print Assumptions C105_full_reachable.
Print Assumptions C105_new_posteriors.
Print Assumptions C106_hierarchical.
Print Assumptions C107_models.
Print Assumptions C108_objective.
Print Assumptions C108_gaussian_likelihood.
Print Assumptions C109_values.
Print Assumptions C110_view_write_partial.
Print Assumptions C113_full.
Print Assumptions C113_moments.

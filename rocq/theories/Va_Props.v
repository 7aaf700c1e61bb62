(** Properties of the VAE and of the log-density matrices (C111, C112, C114). *)
From Coq Require Import Reals List Lra Lia Arith Bool.
From Verif Require Import Prelude Vec Gibbs Dist_Model Dist_Spec Dist_Proofs Llh_Proofs Mat MatDet NW_Model NW_Spec LMat NW_Proofs NW_Llh Gs_Model Gs_Spec Gs_Proofs Gs_Obj Va_Model Va_Spec Va_Proofs HMM_Model HMM_Proofs.
Import ListNotations.
Local Open Scope R_scope.

Lemma samples_shape d S0 posts noise : (0 < S0)%nat -> Forall (ndc_ok d) posts -> length posts = length noise ->
  Forall (fun ns : list (list R) => length ns = S0 /\ Forall (fun e => length e = d) ns) noise ->
  Forall (fun hs => hs <> [] /\ length hs = S0 /\ Forall (fun h => length h = d) hs) (vae_samples posts noise).
Proof.
  intros HS HP. unfold vae_samples. revert noise. induction HP as [|p ps Hp HP IH]; intros [|ns nss] E HN; cbn in E; try discriminate; [constructor|].
  inversion HN as [|? ? (A & B) HN']; subst. cbn [map2]. constructor; [|apply IH; auto].
  assert (L : length (ndc_sample p ns) = length ns) by (unfold ndc_sample; apply map_length). split; [|split].
  - intros X. rewrite X in L. cbn in L. lia.
  - exact L.
  - unfold ndc_sample. apply Forall_map. eapply Forall_impl; [|exact B]. cbn beta. intros e He. destruct Hp as (P1 & P2 & _).
    rewrite !map2_length. lia.
Qed.

(** ** C111: the VAE *)
Section VAE.
Variables (d D S0 : nat) (posts : list ndc_par) (noise : list (list (list R))) (data : list (list R)) (dec : list R -> ndc_par).

Definition vae_ok : Prop :=
  data <> [] /\ (0 < S0)%nat /\ length posts = length data /\ length noise = length data /\
  Forall (ndc_ok d) posts /\ Forall (fun ns => length ns = S0 /\ Forall (fun e => length e = d) ns) noise /\
  Forall (fun x => length x = D) data /\ (forall z, ndc_ok D (dec z)).

Let samples := vae_samples posts noise.

Lemma vae_samples_shape : vae_ok -> length samples = length data /\
  Forall (fun hs => hs <> [] /\ length hs = S0 /\ Forall (fun h => length h = d) hs) samples.
Proof.
  intros (H1 & H2 & H3 & H4 & H5 & H6 & H7 & H8). split; [unfold samples, vae_samples; rewrite map2_length; lia|].
  apply samples_shape; auto. congruence.
Qed.

Lemma vae_llh_nth i : vae_ok -> (i < length data)%nat ->
  nth i (map2 (fun hs x => mean_of (fun z => ndc_forward (dec z) (ndc_suff_stats x)) hs) samples data) 0 =
  recon D dec (nth i data []) (nth i samples []).
Proof.
  intros H Hi. destruct (vae_samples_shape H) as (L & _). destruct H as (H1 & H2 & H3 & H4 & H5 & H6 & H7 & H8).
  rewrite (nth_map2 _ samples data i [] []) by lia. apply mean_of_ext. intros z _. apply ndc_forward_value; auto.
  rewrite Forall_forall in H7. apply H7, nth_In. auto.
Qed.

Lemma vae_ent_nth i : vae_ok -> (i < length data)%nat ->
  nth i (entropy_diag posts samples) 0 = - avg_logq d (nth i posts no_ndc) (nth i samples []).
Proof.
  intros H Hi. destruct (vae_samples_shape H) as (L & HS). destruct H as (H1 & H2 & H3 & H4 & H5 & H6 & H7 & H8).
  rewrite (entropy_diag_ok d); auto; [|lia|].
  - rewrite (nth_map2 _ posts samples i no_ndc []) by lia. f_equal. apply mean_of_ext. intros z Hz. apply ndc_forward_value.
    + rewrite Forall_forall in H5. apply H5, nth_In. lia.
    + rewrite Forall_forall in HS. destruct (HS (nth i samples [])) as (_ & _ & F); [apply nth_In; lia|]. rewrite Forall_forall in F. auto.
  - eapply Forall_impl; [|exact HS]. cbn beta. tauto.
Qed.

Lemma vae_llh_tensor : vae_ok ->
  T2 (map (fun g => [rsum g / INR S0]) (groups (length data) S0
    (map2 (fun z x => ndc_forward (dec z) (ndc_suff_stats x)) (concat samples) (concat (map (fun x => repeat x S0) data))))) =
  col (map2 (fun hs x => mean_of (fun z => ndc_forward (dec z) (ndc_suff_stats x)) hs) samples data).
Proof.
  intros H. destruct (vae_samples_shape H) as (L & HS). unfold col. f_equal.
  rewrite <- (vae_llh_col (fun z x => ndc_forward (dec z) (ndc_suff_stats x)) samples data S0); auto.
  - now rewrite map_map.
  - eapply Forall_impl; [|exact HS]. cbn beta. tauto.
Qed.

(** Normal prior *)
Theorem C111_normal_prior_partial : forall prior q lw kw, vae_ok ->
  (forall h, length h = d -> length (lp_suff prior h) = q) -> length (lp_nat prior) = q ->
  exists m, vae_ellh posts noise (lp_suff prior) (normal_prior prior) dec data S0 lw kw = Ok (T2 m) /\
    length m = length data /\ Forall (fun r => length r = length data) m /\
    forall i j, (i < length data)%nat -> (j < length data)%nat ->
      nth j (nth i m []) 0 =
      lw * recon D dec (nth i data []) (nth i samples []) -
      kw * (avg_logq d (nth j posts no_ndc) (nth j samples []) -
            mean_of (fun h => lp_llh prior (lp_suff prior h)) (nth i samples [])).
Proof.
  intros prior q lw kw H Hq1 Hq2. assert (H' := H). destruct (vae_samples_shape H) as (L & HS).
  destruct H' as (H1 & H2 & H3 & H4 & H5 & H6 & H7 & H8).
  assert (N0 : (0 < length data)%nat) by (destruct data; [contradiction|cbn; lia]).
  unfold vae_ellh. fold samples.
  assert (Ex : tmap Ropp (normal_prior prior (map (fun hs => vmean (map (lp_suff prior) hs)) samples)) = col (xentropy prior samples)).
  { unfold normal_prior, tmap, col, xentropy. f_equal. now rewrite !map_map. }
  rewrite Ex. rewrite (xentropy_ok prior samples q); auto.
  2:{ intros hs h A B. rewrite Forall_forall in HS. destruct (HS hs A) as (_ & _ & F). rewrite Forall_forall in F. auto. }
  2:{ eapply Forall_impl; [|exact HS]. cbn beta. tauto. }
  set (xe := map _ samples).
  assert (Lx : length xe = length data) by (unfold xe; rewrite map_length; auto).
  assert (Le : length (entropy_diag posts samples) = length data) by (unfold entropy_diag; rewrite map2_length; lia).
  rewrite tsub_col_row by (intros E; rewrite E in Lx; cbn in Lx; lia). cbn [bindr].
  rewrite vae_llh_tensor by auto. set (ll := map2 _ samples data).
  assert (Ll : length ll = length data) by (unfold ll; rewrite map2_length; lia).
  rewrite tmap_col, tmap_tab. rewrite Lx, Le.
  rewrite tsub_col_tab' by (rewrite ?map_length; lia).
  eexists. split; [reflexivity|]. split; [apply tab_length|]. split; [apply tab_rows|].
  intros i j Hi Hj. rewrite tab_nth by auto. rewrite map_nth_R by lia. unfold ll. rewrite vae_llh_nth by auto.
  rewrite vae_ent_nth by auto. f_equal. f_equal. unfold xe.
  rewrite (nth_indep _ 0 ((fun hs => - mean_of (fun h => lp_llh prior (lp_suff prior h)) hs) [])) by (rewrite map_length; lia).
  rewrite (map_nth (fun hs => - mean_of (fun h => lp_llh prior (lp_suff prior h)) hs)). ring.
Qed.

(** Prior returning one value per frame *)
Theorem C111_vector_prior_partial : forall psuff f lw kw, vae_ok ->
  exists m, vae_ellh posts noise psuff (vector_prior f) dec data S0 lw kw = Ok (T2 m) /\
    length m = length data /\ Forall (fun r => length r = length data) m /\
    forall i j, (i < length data)%nat -> (j < length data)%nat ->
      nth j (nth i m []) 0 =
      lw * recon D dec (nth i data []) (nth i samples []) -
      kw * (avg_logq d (nth j posts no_ndc) (nth j samples []) - f (vmean (map psuff (nth j samples [])))).
Proof.
  intros psuff f lw kw H. assert (H' := H). destruct (vae_samples_shape H) as (L & HS).
  destruct H' as (H1 & H2 & H3 & H4 & H5 & H6 & H7 & H8).
  assert (N0 : (0 < length data)%nat) by (destruct data; [contradiction|cbn; lia]).
  unfold vae_ellh. fold samples. rewrite vae_llh_tensor by auto. unfold vector_prior.
  assert (Ex : tmap Ropp (T1 (map f (map (fun hs => vmean (map psuff hs)) samples))) = T1 (map (fun hs => - f (vmean (map psuff hs))) samples))
    by (cbn [tmap]; now rewrite !map_map).
  rewrite Ex. set (xe := map _ samples).
  assert (Lx : length xe = length data) by (unfold xe; rewrite map_length; auto).
  assert (Le : length (entropy_diag posts samples) = length data) by (unfold entropy_diag; rewrite map2_length; lia).
  rewrite tsub_vec by congruence. cbn [bindr].
  set (ll := map2 _ samples data).
  assert (Ll : length ll = length data) by (unfold ll; rewrite map2_length; lia).
  rewrite tmap_col. cbn [tmap].
  rewrite tsub_col_row by (intros E; apply map_eq_nil in E; rewrite E in Ll; cbn in Ll; lia).
  eexists. split; [reflexivity|].
  assert (Lv : length (map (Rmult kw) (vsub xe (entropy_diag posts samples))) = length data).
  { rewrite map_length. unfold vsub. rewrite map2_length. lia. }
  rewrite map_length, Ll, Lv. split; [apply tab_length|]. split; [apply tab_rows|].
  intros i j Hi Hj. rewrite tab_nth by auto. rewrite !map_nth_R by (rewrite ?map_length in Lv; lia). unfold ll. rewrite vae_llh_nth by auto.
  unfold vsub. rewrite map2_nth_R by lia. rewrite vae_ent_nth by auto. f_equal. f_equal. unfold xe.
  rewrite (nth_indep _ 0 ((fun hs => - f (vmean (map psuff hs))) [])) by (rewrite map_length; lia).
  rewrite (map_nth (fun hs => - f (vmean (map psuff hs)))). ring.
Qed.

(** Summed, the objective is that of the data set multiplied by the number of
    frames: it is right for one frame only. *)
Theorem C111_sum_partial : forall prior q lw kw, vae_ok ->
  (forall h, length h = d -> length (lp_suff prior h) = q) -> length (lp_nat prior) = q ->
  exists t, vae_ellh posts noise (lp_suff prior) (normal_prior prior) dec data S0 lw kw = Ok t /\
    tsum t = INR (length data) *
      sumf (frame_bound d D dec (fun h => lp_llh prior (lp_suff prior h)) posts samples data lw kw) (seq 0 (length data)).
Proof.
  intros prior q lw kw H Hq1 Hq2. destruct (C111_normal_prior_partial prior q lw kw H Hq1 Hq2) as (m & E & L1 & L2 & V).
  exists (T2 m). split; [exact E|]. cbn [tsum]. rewrite rsum_nth, map_length, L1.
  set (N := length data) in *.
  rewrite (sumf_ext _ (fun i => sumf (fun j => nth j (nth i m []) 0) (seq 0 N))).
  2:{ intros i Hi. apply in_seq in Hi. rewrite (nth_indep _ 0 (rsum [])) by (rewrite map_length; lia). rewrite map_nth, rsum_nth.
      rewrite Forall_forall in L2. rewrite (L2 (nth i m [])); [reflexivity|apply nth_In; lia]. }
  rewrite (sumf_ext _ (fun i => sumf (fun j =>
      (lw * recon D dec (nth i data []) (nth i samples []) + kw * mean_of (fun h => lp_llh prior (lp_suff prior h)) (nth i samples []))
      - kw * avg_logq d (nth j posts no_ndc) (nth j samples [])) (seq 0 N))).
  2:{ intros i Hi. apply in_seq in Hi. apply sumf_ext. intros j Hj. apply in_seq in Hj. rewrite V by lia. ring. }
  rewrite (sumf_ext _ (fun i => INR N * (lw * recon D dec (nth i data []) (nth i samples []) + kw * mean_of (fun h => lp_llh prior (lp_suff prior h)) (nth i samples []))
      - sumf (fun j => kw * avg_logq d (nth j posts no_ndc) (nth j samples [])) (seq 0 N))).
  2:{ intros i _. rewrite sumf_minus, sumf_const, seq_length. ring. }
  rewrite sumf_minus, sumf_const, seq_length, sumf_scal_l.
  rewrite (sumf_ext (frame_bound _ _ _ _ _ _ _ _ _) (fun i =>
    (lw * recon D dec (nth i data []) (nth i samples []) + kw * mean_of (fun h => lp_llh prior (lp_suff prior h)) (nth i samples []))
    - kw * avg_logq d (nth i posts no_ndc) (nth i samples []))).
  - rewrite sumf_minus. ring.
  - intros i _. unfold frame_bound. ring.
Qed.
End VAE.

(** The covariances produced by the encoder and the decoder are valid: above
    the floor of 1e-5 by the exponential of the output of the network. *)
Theorem C111_covariances_partial : forall mean log_diag_cov d, length mean = d -> length log_diag_cov = d ->
  ndc_ok d {| nc_mean := mean; nc_cov := vae_diag_cov log_diag_cov |} /\
  Forall (fun v => / 10 ^ 5 < v) (vae_diag_cov log_diag_cov) /\
  map (fun v => ln (v - / 10 ^ 5)) (vae_diag_cov log_diag_cov) = log_diag_cov.
Proof.
  intros mean l d H1 H2. unfold vae_diag_cov. split; [|split].
  - split; [exact H1|]. split; [cbn [nc_cov]; now rewrite map_length|].
    cbn [nc_cov]. apply Forall_map, Forall_forall. intros v _. assert (X := exp_pos v). lra.
  - apply Forall_map, Forall_forall. intros v _. assert (X := exp_pos v). lra.
  - rewrite map_map. rewrite <- (map_id l) at 2. apply map_ext. intros v. rewrite <- (ln_exp v) at 2. f_equal. lra.
Qed.

Lemma gauss_logpdf_0 : ln (gauss_pdf 0 0 1) < 0.
Proof.
  rewrite ln_gauss_pdf by lra. rewrite ln_1.
  assert (0 < ln (2 * PI)). { rewrite <- ln_1. apply ln_increasing; [lra|]. assert (X := PI_RGT_0). assert (Y := PI2_3_2). lra. }
  lra.
Qed.

(** Two identical frames: the sum of the result is not the sum of the bounds of
    the two frames. *)
Theorem C111_sum_refuted : exists d D S0 posts noise data dec prior q,
  vae_ok d D S0 posts noise data dec /\ (forall h, length h = d -> length (lp_suff prior h) = q) /\ length (lp_nat prior) = q /\
  forall t, vae_ellh posts noise (lp_suff prior) (normal_prior prior) dec data S0 1 1 = Ok t ->
  tsum t <> sumf (frame_bound d D dec (fun h => lp_llh prior (lp_suff prior h)) posts (vae_samples posts noise) data 1 1) (seq 0 (length data)).
Proof.
  set (p0 := {| nc_mean := [0]; nc_cov := [1] |}).
  set (prior := {| lp_suff := fun _ : list R => [0]; lp_nat := [0]; lp_const := ln (gauss_pdf 0 0 1) |}).
  assert (OK : ndc_ok 1 p0) by (split; [reflexivity|]; split; [reflexivity|]; repeat constructor; lra).
  assert (V : vae_ok 1 1 1 [p0; p0] [[[0]]; [[0]]] [[0]; [0]] (fun _ => p0)).
  { unfold vae_ok. split; [discriminate|]. split; [lia|]. split; [reflexivity|]. split; [reflexivity|].
    split; [constructor; [exact OK|constructor; [exact OK|constructor]]|]. split; [repeat constructor|]. split; [repeat constructor|]. intros _. exact OK. }
  exists 1%nat, 1%nat, 1%nat, [p0; p0], [[[0]]; [[0]]], [[0]; [0]], (fun _ => p0), prior, 1%nat.
  split; [exact V|]. split; [reflexivity|]. split; [reflexivity|]. intros t Ht E.
  destruct (C111_sum_partial 1 1 1 _ _ _ _ prior 1 1 1 V ltac:(reflexivity) ltac:(reflexivity)) as (t' & Et & Es).
  rewrite Et in Ht. injection Ht as <-. rewrite Es in E. cbn [length] in E.
  set (X := sumf _ _) in E.
  assert (HX : X = 0); [cbn [INR] in E; lra|].
  unfold X in HX. clear - HX. unfold frame_bound, recon, avg_logq, diag_logpdf, mean_of, lp_llh, sumf, vae_samples, ndc_sample, dot in HX.
  cbn in HX. rewrite Rmult_0_r, Rplus_0_r in HX || idtac. replace (0 + sqrt 1 * 0) with 0 in HX by ring. rewrite Rinv_1 in HX.
  rewrite ?Rplus_0_r in HX. assert (G := gauss_logpdf_0). lra.
Qed.

Example C111_example : tsub (T2 [[10]; [20]]) (T1 [1; 2]) = Ok (T2 [[10 - 1; 10 - 2]; [20 - 1; 20 - 2]]).
Proof. reflexivity. Qed.

(** ** C112: log-densities of several frames for several distributions *)
Theorem C112_full : forall D ps data, ps <> [] -> data <> [] -> Forall (nf_ok D) ps -> Forall (fun x => length x = D) data ->
  exists m, nf_forward_all D ps (map nf_suff_stats data) = Ok (T2 m) /\ length m = length ps /\
    Forall (fun r => length r = length data) m /\
    forall k n p0, (k < length ps)%nat -> (n < length data)%nat ->
      nf_forward true (nth k ps p0) (nf_suff_stats (nth n data [])) = Ok (nth n (nth k m []) 0).
Proof.
  intros D ps data Hne Hd Hps Hdata.
  assert (HN : exists nats, mapM nf_nat ps = Ok nats /\ length nats = length ps /\
     exists ls, mapM (fun pn => nf_lnorm (fst pn) (snd pn)) (combine ps nats) = Ok ls /\ length ls = length ps /\
     forall k p0 s, (k < length ps)%nat -> nf_forward true (nth k ps p0) s =
        Ok (dot (nth k nats []) s - nth k ls 0 + - (1/2) * (INR D * ln (2 * PI)))).
  { clear Hne. induction Hps as [|p ps Hp HP IH].
    - exists []. split; [reflexivity|]. split; [reflexivity|]. exists []. split; [reflexivity|]. split; [reflexivity|]. cbn. intros; lia.
    - destruct IH as (nats & E1 & L1 & ls & E2 & L2 & V). destruct Hp as (P1 & P2 & P3).
      destruct (posdef_inverse D _ P3) as (P & _ & HP'). destruct (chol_complete D _ P3) as (L & _ & HL).
      destruct (nf_nat_value D p P P1 P2 HP') as (n & En & N1 & _).
      exists (n :: nats). cbn [mapM]. rewrite En. cbn [bindr]. rewrite E1. cbn [bindr]. split; [reflexivity|]. split; [cbn; lia|].
      eexists (_ :: ls). cbn [combine mapM fst snd]. unfold nf_lnorm at 1. rewrite (t_cholesky_ok D _ L P2 HL). cbn [bindr].
      rewrite E2. cbn [bindr]. split; [reflexivity|]. split; [cbn; lia|].
      intros [|k] p0 s Hk.
      + cbn [nth]. unfold nf_forward. rewrite En. cbn [bindr]. rewrite (t_cholesky_ok D _ L P2 HL). cbn [bindr]. now rewrite P1.
      + cbn [nth]. apply V. cbn in Hk. lia. }
  destruct HN as (nats & E1 & L1 & ls & E2 & L2 & V).
  unfold nf_forward_all. rewrite E1. cbn [bindr]. rewrite E2. cbn [bindr].
  set (stats := map nf_suff_stats data). assert (Ls : length stats = length data) by (unfold stats; apply map_length).
  assert (Hn : nats <> []). { intros ->. cbn in L1. destruct ps; [contradiction|discriminate]. }
  assert (Hl : ls <> []). { intros ->. cbn in L2. destruct ps; [contradiction|discriminate]. }
  assert (HR : Forall (fun v => length v = length stats) (map (fun n => map (dot n) stats) nats)).
  { apply Forall_map, Forall_forall. intros n _. apply map_length. }
  assert (Hm : map (fun n => map (dot n) stats) nats <> []) by (intros X; apply map_eq_nil in X; contradiction).
  change (T2 (map (fun l => [l]) ls)) with (col ls).
  rewrite (tsub_tab _ _ (length ps) (length stats) (fun k n => dot (nth k nats []) (nth n stats [])) (fun k _ => nth k ls 0)).
  - cbn [bindr]. rewrite tmap_tab. eexists. split; [reflexivity|]. split; [apply tab_length|]. split; [rewrite <- Ls; apply tab_rows|].
    intros k n p0 Hk Hnn. rewrite tab_nth by lia. rewrite V by auto. f_equal. f_equal. f_equal. f_equal.
    unfold stats. rewrite (nth_indep (map nf_suff_stats data) [] (nf_suff_stats [])) by (rewrite map_length; auto). now rewrite map_nth.
  - rewrite col_rows. unfold nrows, rows_of. rewrite map_length, L1, L2. apply bdim_same.
  - rewrite col_cols by auto. rewrite (mat_cols _ _ Hm HR). apply bdim_1_r.
  - intros k n Hk Hnn. rewrite (mat_get _ (length ps) (length stats)) by (auto; rewrite ?map_length; auto; lia).
    rewrite (nth_indep _ [] (map (dot []) stats)) by (rewrite map_length; lia).
    rewrite (map_nth (fun n => map (dot n) stats)). rewrite (nth_indep _ 0 (dot (nth k nats []) [])) by (rewrite map_length; auto).
    now rewrite map_nth.
  - intros k n Hk _. apply col_get. lia.
  - exact I.
Qed.

Lemma ndc_forward_split p s D : length (nc_mean p) = D -> ndc_forward p s = dot (ndc_nat p) s - ndc_lnorm p + - (1/2) * INR D * ln (2 * PI).
Proof. intros <-. reflexivity. Qed.

(** One distribution *)
Theorem C112_diagonal_one_partial : forall D p data, ndc_ok D p -> data <> [] -> Forall (fun x => length x = D) data ->
  ndc_forward_all true D [p] (map ndc_suff_stats data) =
  Ok (T1 (map (fun x => sumf (fun d => ln (gauss_pdf (nth d x 0) (nth d (nc_mean p) 0) (/ nth d (nc_cov p) 0))) (seq 0 D)) data)).
Proof.
  intros D p data Hp Hd HD. unfold ndc_forward_all. cbn [map]. rewrite map_map.
  set (row := map (fun x => dot (ndc_nat p) (ndc_suff_stats x)) data).
  rewrite (tsub_tab _ _ 1 (length data) (fun _ j => nth j row 0) (fun _ _ => ndc_lnorm p)).
  - cbn [bindr]. rewrite tmap_tab. unfold tab. cbn [seq map treshape1 concat]. rewrite app_nil_r. f_equal. f_equal.
    apply vec_ext; [now rewrite !map_length, seq_length|].
    intros i Hi. rewrite map_length, seq_length in Hi. rewrite seq_map_nth by auto.
    unfold row. rewrite (nth_indep (map (fun x => dot (ndc_nat p) (ndc_suff_stats x)) data) 0 (dot (ndc_nat p) (ndc_suff_stats [])))
      by (rewrite map_length; auto).
    rewrite (map_nth (fun x => dot (ndc_nat p) (ndc_suff_stats x))).
    rewrite <- (ndc_forward_split p _ D) by apply Hp.
    rewrite Forall_forall in HD. rewrite (ndc_forward_value D) by (auto; apply HD, nth_In; auto).
    match goal with |- _ = nth i (map ?f data) 0 => rewrite (nth_indep (map f data) 0 (f [])) by (rewrite map_length; auto); now rewrite (map_nth f) end.
  - reflexivity.
  - unfold ncols, rows_of. cbn [hd length]. unfold row. rewrite map_length. apply bdim_1_r.
  - intros i j Hi Hj. assert (i = 0%nat) by lia. subst. rewrite (mat_get [row] 1 (length data)); auto.
    constructor; [|constructor]. unfold row. apply map_length.
  - intros i j _ Hj. unfold bget, nrows, ncols, rows_of. cbn. unfold bidx. cbn. destruct (Nat.eqb 1 1); reflexivity.
  - exact I.
Qed.

(** As many distributions as frames: the normalizer of the n-th distribution is
    used for the n-th frame. *)
Theorem C112_diagonal_square_partial : forall D ps data, Forall (ndc_ok D) ps -> ps <> [] -> length data = length ps ->
  Forall (fun x => length x = D) data ->
  exists m, ndc_forward_all false D ps (map ndc_suff_stats data) = Ok (T2 m) /\
  forall k n, (k < length ps)%nat -> (n < length ps)%nat ->
    nth n (nth k m []) 0 =
    sumf (fun d => ln (gauss_pdf (nth d (nth n data []) 0) (nth d (nc_mean (nth k ps no_ndc)) 0) (/ nth d (nc_cov (nth k ps no_ndc)) 0))) (seq 0 D)
    + (ndc_lnorm (nth k ps no_ndc) - ndc_lnorm (nth n ps no_ndc)).
Proof.
  intros D ps data Hps Hne HL HD. unfold ndc_forward_all.
  set (stats := map ndc_suff_stats data). assert (Ls : length stats = length ps) by (unfold stats; now rewrite map_length).
  assert (HR : Forall (fun v => length v = length ps) (map (fun p => map (dot (ndc_nat p)) stats) ps)).
  { apply Forall_map, Forall_forall. intros n _. now rewrite map_length. }
  rewrite (tsub_tab _ _ (length ps) (length ps) (fun k n => dot (ndc_nat (nth k ps no_ndc)) (nth n stats [])) (fun _ n => ndc_lnorm (nth n ps no_ndc))).
  - cbn [bindr]. rewrite tmap_tab. eexists. split; [reflexivity|]. intros k n Hk Hn. rewrite tab_nth by auto.
    rewrite Forall_forall in Hps, HD. assert (Hpk : ndc_ok D (nth k ps no_ndc)) by (apply Hps, nth_In; auto).
    rewrite <- (ndc_forward_value D) by (auto; apply HD, nth_In; lia).
    rewrite (ndc_forward_split _ _ D) by apply Hpk.
    replace (nth n stats []) with (ndc_suff_stats (nth n data [])).
    + ring.
    + unfold stats. rewrite (nth_indep (map ndc_suff_stats data) [] (ndc_suff_stats [])) by (rewrite map_length; lia). now rewrite map_nth.
  - unfold nrows, rows_of. rewrite map_length. apply bdim_1_r.
  - rewrite (mat_cols _ (length ps)); auto.
    + unfold ncols, rows_of. cbn [hd]. rewrite map_length. apply bdim_same.
    + intros E. apply map_eq_nil in E. contradiction.
  - intros k n Hk Hn. rewrite (mat_get _ (length ps) (length ps)) by (auto; apply map_length).
    rewrite (nth_indep _ [] (map (dot (ndc_nat no_ndc)) stats)) by (rewrite map_length; lia).
    rewrite (map_nth (fun p => map (dot (ndc_nat p)) stats)).
    rewrite (nth_indep _ 0 (dot (ndc_nat (nth k ps no_ndc)) [])) by (rewrite map_length; lia). now rewrite map_nth.
  - intros k n _ Hn. rewrite row_get by (rewrite map_length; auto).
    rewrite (nth_indep _ 0 (ndc_lnorm no_ndc)) by (rewrite map_length; auto). now rewrite map_nth.
  - exact I.
Qed.

Theorem C112_diagonal_refuted : exists D ps data, Forall (ndc_ok D) ps /\ Forall (fun x => length x = D) data /\
  forall m, ndc_forward_all false D ps (map ndc_suff_stats data) = Ok (T2 m) ->
  exists k n, (k < length ps)%nat /\ (n < length data)%nat /\
    nth n (nth k m []) 0 <>
    sumf (fun d => ln (gauss_pdf (nth d (nth n data []) 0) (nth d (nc_mean (nth k ps no_ndc)) 0) (/ nth d (nc_cov (nth k ps no_ndc)) 0))) (seq 0 D).
Proof.
  set (ps := [{| nc_mean := [0]; nc_cov := [1] |}; {| nc_mean := [1]; nc_cov := [1] |}]).
  assert (OK : Forall (ndc_ok 1) ps) by (repeat constructor; cbn; lra).
  assert (HD : Forall (fun x : list R => length x = 1%nat) [[0]; [0]]) by repeat constructor.
  exists 1%nat, ps, [[0]; [0]]. split; [exact OK|]. split; [exact HD|].
  intros m Hm. exists 0%nat, 1%nat. split; [cbn; lia|]. split; [cbn; lia|].
  destruct (C112_diagonal_square_partial 1 ps [[0]; [0]] OK ltac:(discriminate) eq_refl HD) as (m' & E & V).
  rewrite E in Hm. injection Hm as <-. rewrite V by (cbn; lia). intros X.
  assert (Y : ndc_lnorm (nth 0 ps no_ndc) - ndc_lnorm (nth 1 ps no_ndc) = 0) by lra.
  unfold ndc_lnorm, ps in Y. cbn in Y. lra.
Qed.

(** Different numbers of distributions and frames, both above one: an error. *)
Theorem C112_diagonal_shape_refuted : forall D ps data, (2 <= length ps)%nat -> (2 <= length data)%nat ->
  length ps <> length data -> ndc_forward_all false D ps (map ndc_suff_stats data) = Err RuntimeError.
Proof.
  intros D ps data H1 H2 H3. unfold ndc_forward_all, tsub.
  assert (E : bdim (nrows (T2 (map (fun p => map (dot (ndc_nat p)) (map ndc_suff_stats data)) ps))) (nrows (T1 (map ndc_lnorm ps))) = Ok (length ps)).
  { unfold nrows, rows_of. rewrite map_length. apply bdim_1_r. }
  rewrite E. cbn [bindr].
  assert (E2 : bdim (ncols (T2 (map (fun p => map (dot (ndc_nat p)) (map ndc_suff_stats data)) ps))) (ncols (T1 (map ndc_lnorm ps))) = Err RuntimeError).
  { unfold ncols, rows_of. destruct ps as [|p ps]; [cbn in H1; lia|]. cbn [map hd]. rewrite !map_length. cbn [length] in *. rewrite map_length.
    unfold bdim. destruct (Nat.eqb_spec (length data) (S (length ps))); [lia|].
    destruct (Nat.eqb_spec (length data) 1); [lia|]. destruct (Nat.eqb_spec (S (length ps)) 1); [lia|reflexivity]. }
  rewrite E2. reflexivity.
Qed.

Example C112_example : ndc_forward_all false 1 [no_ndc; no_ndc] (map ndc_suff_stats [[0]; [1]; [2]]) = Err RuntimeError.
Proof. apply C112_diagonal_shape_refuted; cbn; lia. Qed.

(** ** C114: mixture prior on the latent variable *)

(** Components of the mixture: log-weight, natural parameters, constant *)
Definition mix_llh (suff : list R -> list R) (comps : list (R * list R * R)) (s : list R) : R :=
  lse comps (fun c => fst (fst c) + (dot s (snd (fst c)) + snd c)).

(** It is the value computed by the model of mixture.py. *)
Theorem C114_is_mixture : forall suff comps s, comps <> [] ->
  mixture_ellh (map (fun c => dot s (snd (fst c)) + snd c) comps) (map (fun c : R * list R * R => fst (fst c)) comps) None =
  Ok (mix_llh suff comps s,
      map (fun c => exp (fst (fst c) + (dot s (snd (fst c)) + snd c) - mix_llh suff comps s)) comps).
Proof.
  intros suff comps s Hne. cbn [mixture_ellh].
  assert (E : vadd (map (fun c => dot s (snd (fst c)) + snd c) comps) (map (fun c : R * list R * R => fst (fst c)) comps) =
     map (fun c => fst (fst c) + (dot s (snd (fst c)) + snd c)) comps).
  { unfold vadd. rewrite map2_map_l, map2_map_r. clear Hne. induction comps as [|c comps IH]; [reflexivity|]. cbn [map2 map]. rewrite IH.
    f_equal. ring. }
  assert (ET : tlse (map (fun c => fst (fst c) + (dot s (snd (fst c)) + snd c)) comps) = mix_llh suff comps s).
  { unfold tlse, mix_llh, lse. rewrite map_map. reflexivity. }
  rewrite mixture_value.
  3:{ intros X. apply map_eq_nil in X. contradiction. }
  - rewrite E, ET. f_equal. f_equal. unfold mixture_log_resps. rewrite E, ET, !map_map. reflexivity.
  - now rewrite !map_length.
Qed.

(** The cross-entropy computed from the averaged statistics is an upper bound of
    the average: the objective stays a lower bound. *)
Theorem C114_bound : forall suff comps hs q, comps <> [] -> hs <> [] -> (forall h, In h hs -> length (suff h) = q) ->
  (forall c, In c comps -> length (snd (fst c)) = q) ->
  mean_of (fun h => - mix_llh suff comps (suff h)) hs <= - mix_llh suff comps (vmean (map suff hs)).
Proof.
  intros suff comps hs q Hc Hh Hs Hq. rewrite mean_of_opp. apply Ropp_le_contravar.
  unfold mix_llh.
  apply Rle_trans with (lse comps (fun c => mean_of (fun h => fst (fst c) + (dot (suff h) (snd (fst c)) + snd c)) hs)).
  - right. unfold lse. f_equal. apply sumf_ext. intros c Hin. f_equal.
    rewrite (dot_vmean _ q).
    + rewrite mean_of_map. rewrite (mean_of_ext (fun h => fst (fst c) + (dot (suff h) (snd (fst c)) + snd c))
        (fun h => dot (suff h) (snd (fst c)) + (fst (fst c) + snd c))) by (intros; ring).
      rewrite mean_of_const by auto. ring.
    + destruct hs; [contradiction|discriminate].
    + apply Forall_map, Forall_forall. auto.
    + auto.
  - apply (lse_convex comps (fun c h => fst (fst c) + (dot (suff h) (snd (fst c)) + snd c))); auto.
Qed.

Example C114_example : mix_llh (fun h => h) [(0, [1], 0); (0, [-1], 0)] [0] = ln 2 /\
  - mix_llh (fun h => h) [(0, [1], 0); (0, [-1], 0)] (vmean [[1]; [-1]]) = - ln 2.
Proof.
  assert (E : mix_llh (fun h => h) [(0, [1], 0); (0, [-1], 0)] [0] = ln 2).
  { unfold mix_llh, lse, sumf, dot. cbn. f_equal.
    replace (0 + (0 * 1 + 0 + 0)) with 0 by ring. replace (0 + (0 * -1 + 0 + 0)) with 0 by ring. rewrite exp_0. ring. }
  split; [exact E|]. rewrite <- E. f_equal. f_equal. unfold vmean, vscale, colsum. cbn. f_equal. lra.
Qed.

Print Assumptions C111_normal_prior_partial.
Print Assumptions C111_vector_prior_partial.
Print Assumptions C111_sum_refuted.
Print Assumptions C112_full.
Print Assumptions C112_diagonal_refuted.
Print Assumptions C114_bound.

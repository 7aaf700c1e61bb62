(** C179: the emissions mkphones creates, and the training they allow. *)
From Coq Require Import Reals String List Arith Bool Lia Lra Permutation ZArith.
From Verif Require Import Prelude Vec MF_Model MF_Proofs Edit_Model Edit_Proofs Dec_Model Dec_Proofs Opt_Model Opt_Spec Opt_Proofs Opt_Pipe.
From Verif Require Import FB_Model FB_Spec Graph_Model Graph_Spec Gb_Model Gb_Spec Gb_Proofs Pa_Model.
From Verif Require Import Lgamma Set_Model Set_Spec Set_Proofs
  HMM_Model HMM_Spec Dist_Model Dist_Spec Dist_Proofs Mat NW_Model NW_Spec
  SB_Model SB_Spec Sk_Model Sk_Spec Df_Model Df_Spec Df_Proofs Pl_Model
  Vt_Model Vt_Spec Vt_Proofs Vl_Model Vl_Spec
  Pw_Model Pw_Spec Bg_Model Bg_Spec
  Dt_Model Dt_Spec Dl_Model Dl_Spec Db_Model Rp_Model Rp_Spec Rp_Proofs Rp_Props Em_Model Em_Spec Em_Proofs.
Import ListNotations.
Local Open Scope R_scope.

Lemma same_kinds (k : kind) (gcs : list emconf) : Forall (emconf_ok k) gcs ->
  Forall2 emconf_ok (repeat k (length gcs)) gcs /\ Forall (eq k) (repeat k (length gcs)).
Proof. induction 1 as [|gc gcs H F (I1 & I2)]; [split; constructor|]. split; constructor; auto. Qed.

(** The groups of emissions, with their kinds *)
Lemma mkphones_all_ok conf lines ul D mean var draw (ks : list kind) :
  (forall g t, In (g, t) (topologies conf) -> has_emitting t) -> populated (topologies conf) ul ->
  mapM unit_line lines = Ok ul -> NoDup (map fst ul) ->
  (forall u, In u ul -> In (snd u) (map fst (topologies conf))) ->
  features_ok D mean var -> Forall2 emconf_ok ks (map snd (emconfs conf)) ->
  exists units tots ps, mkphones (topologies conf) lines = Ok (units, tots) /\
    mkphones_all mean var draw conf lines = Ok (units, tots, ps) /\ length ps = length tots /\
    Forall (fun t => (0 < t)%nat) tots /\ groups_ok D mean var draw 0 tots (map snd (emconfs conf)) ks ps.
Proof.
  intros H1 H2 H3 H4 H5 Hf Hk. destruct (mkphones_spec (topologies conf) lines ul H1 H2 H3 H4 H5) as (units & tots & E & _ & _ & L & _).
  assert (Ht := mkphones_tots _ _ _ _ E).
  destruct (create_all_ok D mean var draw Hf tots (map snd (emconfs conf)) ks 0 Hk) as (ps & Ep & Hg).
  { now rewrite map_length, <- groups_length. }
  { exact Ht. }
  exists units, tots, ps. split; [exact E|]. unfold mkphones_all. rewrite E. cbn [bindr fst snd]. rewrite Ep. split; [reflexivity|].
  split; [|split; [exact Ht|exact Hg]]. clear - Hg. induction Hg; [reflexivity|]. simpl. congruence.
Qed.

(** The emissions: one per emitting state, with parameters of their own, proper
    and of the same kind, all of them in one group of the optimiser. *)
Theorem C179_emissions : forall conf lines ul D mean var draw k,
  (forall g t, In (g, t) (topologies conf) -> has_emitting t) -> populated (topologies conf) ul ->
  mapM unit_line lines = Ok ul -> NoDup (map fst ul) ->
  (forall u, In u ul -> In (snd u) (map fst (topologies conf))) ->
  features_ok D mean var -> (forall g t gc, In (g, (t, gc)) conf -> emconf_ok k gc) ->
  exists units tots ps, mkphones (topologies conf) lines = Ok (units, tots) /\
    mkphones_all mean var draw conf lines = Ok (units, tots, ps) /\
    size (em_set ps) = list_sum tots /\ typed k D (em_state ps) (em_set ps) /\
    NoDup (params (em_set ps)) /\ (forall x, In x (params (em_set ps)) <-> (x < 2 * length tots)%nat) /\
    exists g, em_groups ps = Ok [g] /\ Permutation g (params (em_set ps)).
Proof.
  intros conf lines ul D mean var draw k H1 H2 H3 H4 H5 Hf Hc.
  assert (Hk : Forall (emconf_ok k) (map snd (emconfs conf))).
  { apply Forall_forall. intros gc Hgc. apply emconfs_in in Hgc. destruct Hgc as (g & t & Hin). exact (Hc g t gc Hin). }
  destruct (same_kinds k _ Hk) as (K1 & K2).
  destruct (mkphones_all_ok conf lines ul D mean var draw _ H1 H2 H3 H4 H5 Hf K1) as (units & tots & ps & E1 & E2 & L & Ht & Hg).
  exists units, tots, ps. split; [exact E1|]. split; [exact E2|]. split; [eapply groups_size; eauto|].
  assert (Ep := groups_params _ _ _ _ _ _ _ _ _ Hg).
  split; [|split; [|split]].
  - eapply groups_typed; eauto. intros j g Hj. cbn [plus]. split; [now apply state_even|now apply state_odd].
  - rewrite Ep. apply pairs_nodup.
  - intros x. rewrite Ep, pairs_in, L. lia.
  - eexists. split; [apply em_groups_ok|]. rewrite Ep. apply pairs_perm.
Qed.

(** What they contain.  The i-th group has [tot] mixtures of [ec_n] Normals; the
    configuration of the group is the one of the file. *)
Theorem C179_content : forall conf lines ul D mean var draw k,
  (forall g t, In (g, t) (topologies conf) -> has_emitting t) -> populated (topologies conf) ul ->
  mapM unit_line lines = Ok ul -> NoDup (map fst ul) ->
  (forall u, In u ul -> In (snd u) (map fst (topologies conf))) ->
  features_ok D mean var -> (forall g t gc, In (g, (t, gc)) conf -> emconf_ok k gc) -> NoDup (map fst conf) ->
  exists units tots ps, mkphones_all mean var draw conf lines = Ok (units, tots, ps) /\ length tots = length conf /\
    forall i g t gc, nth_error conf i = Some (g, (t, gc)) ->
      let normals := em_state ps (2 * i)%nat in let weights := em_state ps (2 * i + 1)%nat in
      length weights = nth i tots 0%nat /\ length normals = (nth i tots 0 * ec_n gc)%nat /\
      Forall (even_weights (ec_n gc) (ec_strength gc)) weights /\ Forall (leaf_cell k D) normals /\
      forall j, (j < length normals)%nat ->
        around mean var (ec_strength gc) (ec_noise gc) (draw i j) (nth j normals (CWeights [] [])).
Proof.
  intros conf lines ul D mean var draw k H1 H2 H3 H4 H5 Hf Hc Hnd.
  assert (Hk : Forall (emconf_ok k) (map snd (emconfs conf))).
  { apply Forall_forall. intros gc Hgc. apply emconfs_in in Hgc. destruct Hgc as (g & t & Hin). exact (Hc g t gc Hin). }
  destruct (same_kinds k _ Hk) as (K1 & K2).
  destruct (mkphones_all_ok conf lines ul D mean var draw _ H1 H2 H3 H4 H5 Hf K1) as (units & tots & ps & E1 & E2 & L & Ht & Hg).
  assert (Ee : map snd (emconfs conf) = map (fun g => snd (snd g)) conf) by now apply emconfs_distinct.
  exists units, tots, ps. split; [exact E2|].
  assert (Lt : length tots = length conf).
  { rewrite Ee in Hg. clear - Hg. remember (map (fun g => snd (snd g)) conf) as gcs eqn:E.
    transitivity (length gcs); [|subst; now rewrite map_length]. clear E. induction Hg; [reflexivity|]. simpl. congruence. }
  split; [exact Lt|]. intros i g t gc Hi normals weights.
  assert (Hgi : exists p k', nth_error ps i = Some p /\ group_ok D mean var (draw i) i (nth i tots 0%nat) gc k' p /\ In k' (repeat k (length (map snd (emconfs conf))))).
  { rewrite Ee in *. assert (Hi' : nth_error (map (fun g => snd (snd g)) conf) i = Some gc).
    { rewrite nth_error_map, Hi. reflexivity. }
    apply (groups_nth _ _ _ _ _ _ _ _ _ Hg i gc Hi'). }
  destruct Hgi as (p & k' & Ep & (_ & Lw & Ln & _ & Fl & We & Ar) & Hk'). apply repeat_spec in Hk'. subst k'.
  unfold normals, weights. rewrite (state_even ps i p Ep), (state_odd ps i p Ep).
  split; [exact Lw|]. split; [exact Ln|]. split; [exact We|]. split; [exact Fl|]. intros j Hj. apply Ar. now rewrite <- Ln.
Qed.

(** Which configurations give emissions a frame can be scored with: those with
    one covariance type (in one dimension, all of them). *)
Theorem C179_scores : forall conf lines ul D mean var draw,
  (forall g t, In (g, t) (topologies conf) -> has_emitting t) -> populated (topologies conf) ul ->
  mapM unit_line lines = Ok ul -> NoDup (map fst ul) ->
  (forall u, In u ul -> In (snd u) (map fst (topologies conf))) ->
  features_ok D mean var -> (forall g t gc, In (g, (t, gc)) conf -> exists k, emconf_ok k gc) -> NoDup (map fst conf) -> conf <> [] ->
  exists units tots ps, mkphones_all mean var draw conf lines = Ok (units, tots, ps) /\
    forall x, length x = D ->
      exists y, em_stats (map snd (emconfs conf)) x = Ok y /\
      (((D = 1)%nat \/ exists c, forall g t gc, In (g, (t, gc)) conf -> ec_cov gc = c) -> score (em_set ps) y = Ok (ellh (em_set ps) y)) /\
      (((2 <= D)%nat /\ ~ exists c, forall g t gc, In (g, (t, gc)) conf -> ec_cov gc = c) -> score (em_set ps) y = Err RuntimeError).
Proof.
  intros conf lines ul D mean var draw H1 H2 H3 H4 H5 Hf Hc Hnd Hne.
  assert (Ee : map snd (emconfs conf) = map (fun g => snd (snd g)) conf) by now apply emconfs_distinct.
  assert (Hks : exists ks, Forall2 emconf_ok ks (map snd (emconfs conf))).
  { rewrite Ee. clear - Hc. induction conf as [|[g [t gc]] conf IH]; [exists []; constructor|].
    destruct (Hc g t gc (or_introl eq_refl)) as (k & Hk). destruct IH as (ks & Hks); [intros; eapply Hc; right; eauto|].
    exists (k :: ks). now constructor. }
  destruct Hks as (ks & Hks).
  destruct (mkphones_all_ok conf lines ul D mean var draw ks H1 H2 H3 H4 H5 Hf Hks) as (units & tots & ps & E1 & E2 & L & Ht & Hg).
  exists units, tots, ps. split; [exact E2|]. intros x Hx.
  destruct conf as [|[g0 [t0 gc0]] conf]; [congruence|]. rewrite Ee in *. cbn [map snd] in *.
  inversion Hks as [|k0 ? ks' ? Hk0 Hks']; subst. destruct Hk0 as (_ & _ & Hkind0).
  exists (cov_stats (ec_cov gc0) x). split; [reflexivity|].
  rewrite (kind_stats _ k0 Hkind0), (score_groups _ _ _ _ _ _ _ _ _ (suff k0 x) Hg).
  assert (Hlen : forall k, k <> KCat -> forall D', length x = D' -> length (suff k x) = suff_dim k D').
  { intros k Hk D' HD. now apply gauss_length. }
  assert (G0 := kind_gauss _ _ Hkind0).
  split.
  - intros Hs. replace (forallb _ _) with true; [reflexivity|]. symmetry. apply forallb_forall. intros k Hk.
    apply Nat.eqb_eq. rewrite (gauss_length k0 _ x eq_refl G0).
    destruct (in_kinds ks' _ Hks' k0 k Hk) as [->|(gc & Hgc & (_ & _ & Hkk))]; [reflexivity|].
    destruct Hs as [HD|(c & Hcc)].
    + rewrite HD. assert (G := kind_gauss _ _ Hkk). destruct k0, k; try congruence; reflexivity.
    + assert (Ec : ec_cov gc = ec_cov gc0).
      { apply in_map_iff in Hgc. destruct Hgc as ([g [t gc']] & <- & Hin). cbn [snd].
        rewrite (Hcc g t gc' (or_intror Hin)), (Hcc g0 t0 gc0 (or_introl eq_refl)). reflexivity. }
      rewrite Ec in Hkk. now rewrite (kind_unique _ _ _ Hkind0 Hkk).
  - intros (HD & Hs). replace (forallb _ _) with false; [reflexivity|]. symmetry.
    destruct (forallb _ _) eqn:Ef; [|reflexivity]. exfalso. apply Hs. exists (ec_cov gc0).
    rewrite forallb_forall in Ef. intros g t gc [Hin|Hin]; [congruence|].
    destruct (in_kinds_rev ks' _ Hks' gc) as (k & Hk & (_ & _ & Hkk)).
    { apply in_map_iff. exists (g, (t, gc)). auto. }
    specialize (Ef k (or_intror Hk)). apply Nat.eqb_eq in Ef. rewrite (gauss_length k0 _ x eq_refl G0) in Ef.
    apply (dims_differ k0 k) in Ef; [|exact HD|exact G0|exact (kind_gauss _ _ Hkk)]. subst k. exact (kind_same _ _ _ Hkk Hkind0).
Qed.

Lemma make_phones eps prior conc conf lines group wid l lo units tots :
  make_loop eps prior conc conf lines group wid = Ok (l, lo, units, tots) -> mkphones conf lines = Ok (units, tots).
Proof.
  intros E. apply make_built in E. unfold build_loop in E. apply bindr_inv in E. destruct E as ([u t] & Em & E).
  do 5 (apply bindr_inv in E; destruct E as (? & _ & E)). cbn [fst snd] in E. rewrite Em. congruence.
Qed.

Lemma config_emissions conf lines ul group D mean var draw k : config_ok (topologies conf) lines ul group ->
  features_ok D mean var -> (forall g t gc, In (g, (t, gc)) conf -> emconf_ok k gc) ->
  exists units tots ps, mkphones (topologies conf) lines = Ok (units, tots) /\
    mkphones_all mean var draw conf lines = Ok (units, tots, ps) /\
    size (em_set ps) = list_sum tots /\ typed k D (em_state ps) (em_set ps) /\
    NoDup (params (em_set ps)) /\ (forall x, In x (params (em_set ps)) -> (x < 2 * length conf)%nat) /\
    exists eg, em_groups ps = Ok eg /\ Forall (@NoDup nat) eg /\ incl (concat eg) (params (em_set ps)).
Proof.
  intros (Hconf & -> & Hne & Hpop & Hnd & Hg & _ & _) Hf Hc.
  destruct (C179_emissions conf (map (fun u => [fst u; snd u]) ul) ul D mean var draw k) as
    (units & tots & ps & E1 & E2 & A1 & A2 & A3 & A4 & g & A5 & A6); auto.
  { intros gn t Ht. destruct (Hconf gn t Ht) as (_ & n & e & x & Hcn & _ & (He & _) & _). exists n. split; [lia|exact Hcn]. }
  { apply unit_lines. }
  exists units, tots, ps. repeat (split; [assumption|]). split.
  - intros x Hx. apply A4 in Hx. assert (L : (length tots <= length conf)%nat); [|lia].
    destruct (mkphones_spec (topologies conf) (map (fun u => [fst u; snd u]) ul) ul) as (units' & tots' & E' & _ & _ & L & _); auto.
    + intros gn t Ht. destruct (Hconf gn t Ht) as (_ & n & e & y & Hcn & _ & (He & _) & _). exists n. split; [lia|exact Hcn].
    + apply unit_lines.
    + assert (tots' = tots) by congruence. subst tots'. rewrite L, groups_length. apply emconfs_length.
  - exists [g]. split; [exact A5|]. split.
    + constructor; [|constructor]. eapply Permutation_NoDup; [apply Permutation_sym; exact A6|exact A3].
    + cbn [concat]. rewrite app_nil_r. intros x Hx. eapply Permutation_in; eauto.
Qed.

(** From the configuration and the statistics of the features to the trained
    phone-loop: no command fails, and the bound does not decrease. *)
Theorem C179_unigram_training : forall enum sort amax eps prior conc conf lines ul group wid k D mean var draw scale ds lrate xs jobss,
  config_ok (topologies conf) lines ul group -> features_ok D mean var -> (forall g t gc, In (g, (t, gc)) conf -> emconf_ok k gc) ->
  (2 * length conf <= wid)%nat ->
  In prior unigram_priors -> match conc with Some c => 0 <= c | None => True end ->
  is_enum enum -> (forall counts, sorts_desc counts (sort counts)) -> 0 <= scale -> (0 < ds)%nat ->
  0 <= lrate <= 1 -> prior = Some "dirichlet"%string \/ lrate = 1 ->
  exists units tots ps eg l lo w, mkphones_all mean var draw conf lines = Ok (units, tots, ps) /\ em_groups ps = Ok eg /\
    make_loop eps prior conc (topologies conf) lines group wid = Ok (l, lo, units, tots) /\ wpar_of (lo_weights lo) = Some w /\
    (Forall (spoken k D group ul units) xs -> xs <> [] -> Forall (shares xs) jobss ->
     let s := pw_init l w (em_state ps) in let wt := INR ds / INR (loop_frames xs) in
     forall n m, (n <= m <= length jobss)%nat ->
     exists s1 s2 v1 v2,
       loop_rounds enum sort amax scale ds l (em_set ps) wid eg lrate true xs (firstn n jobss) (s, None) = Ok (s1, v1) /\
       loop_rounds enum sort amax scale ds l (em_set ps) wid eg lrate true xs (firstn m jobss) (s, None) = Ok (s2, v2) /\
       pw_good k D l (em_set ps) s2 /\
       (Forall (fun x => lu_ali x <> None) xs -> pw_bound scale wt l (em_set ps) xs s1 <= pw_bound scale wt l (em_set ps) xs s2) /\
       (forall i0, one_initial (pl_graph l) i0 -> pw_drawn scale wt l (em_set ps) xs s1 <= pw_drawn scale wt l (em_set ps) xs s2)).
Proof.
  intros enum sort amax eps prior conc conf lines ul group wid k D mean var draw scale ds lrate xs jobss H Hf Hc Hw Hpr Hconc He Hso Hs Hds Hlr Hr.
  destruct (config_emissions conf lines ul group D mean var draw k H Hf Hc) as (units & tots & ps & E1 & E2 & A1 & A2 & A3 & A4 & eg & A5 & A6 & A7).
  destruct (C178_unigram_training enum sort amax eps prior conc (topologies conf) lines ul group wid k D scale ds (em_set ps) (em_state ps) eg lrate xs jobss
    H Hpr Hconc He Hso Hs Hds Hlr Hr) as (l & lo & units' & tots' & w & B1 & B2 & B3).
  assert (B4 := make_phones _ _ _ _ _ _ _ _ _ _ _ B1). assert (units' = units) by congruence. assert (tots' = tots) by congruence. subst units' tots'.
  exists units, tots, ps, eg, l, lo, w. repeat (split; [assumption|]). apply B3; auto.
  intros Hin. apply A4 in Hin. lia.
Qed.

Theorem C179_bigram_training : forall enum amax eps prior conc conf lines ul group wid k D mean var draw scale ds lrate xs jobss,
  config_ok (topologies conf) lines ul group -> features_ok D mean var -> (forall g t gc, In (g, (t, gc)) conf -> emconf_ok k gc) ->
  (2 * length conf <= wid)%nat ->
  In prior bigram_priors -> match conc with Some c => 0 <= c | None => True end -> 0 <= eps ->
  is_enum enum -> 0 <= scale -> (0 < ds)%nat -> 0 <= lrate <= 1 ->
  exists units tots ps eg l lo b, mkphones_all mean var draw conf lines = Ok (units, tots, ps) /\ em_groups ps = Ok eg /\
    make_loop eps prior conc (topologies conf) lines group wid = Ok (l, lo, units, tots) /\ bset_of (lo_weights lo) = Some b /\
    (Forall (fun x => lu_ali x = None /\ spoken k D group ul units x) xs -> xs <> [] -> Forall (shares xs) jobss ->
     let s := bg_init l b (em_state ps) in let wt := INR ds / INR (loop_frames xs) in
     forall n m, (n <= m <= length jobss)%nat ->
     exists s1 s2 v1 v2,
       bg_rounds enum amax scale ds l (em_set ps) wid eg lrate true xs (firstn n jobss) (s, None) = Ok (s1, v1) /\
       bg_rounds enum amax scale ds l (em_set ps) wid eg lrate true xs (firstn m jobss) (s, None) = Ok (s2, v2) /\
       bg_good k D l (em_set ps) s2 /\
       (prior = Some "hierarchical_dirichlet_process"%string -> bg_bound scale wt l (em_set ps) xs s1 <= bg_bound scale wt l (em_set ps) xs s2)).
Proof.
  intros enum amax eps prior conc conf lines ul group wid k D mean var draw scale ds lrate xs jobss H Hf Hc Hw Hpr Hconc Heps He Hs Hds Hlr.
  destruct (config_emissions conf lines ul group D mean var draw k H Hf Hc) as (units & tots & ps & E1 & E2 & A1 & A2 & A3 & A4 & eg & A5 & A6 & A7).
  destruct (C178_bigram_training enum amax eps prior conc (topologies conf) lines ul group wid k D scale ds (em_set ps) (em_state ps) eg lrate xs jobss
    H Hpr Hconc Heps He Hs Hds Hlr) as (l & lo & units' & tots' & w & B1 & B2 & B3).
  assert (B4 := make_phones _ _ _ _ _ _ _ _ _ _ _ B1). assert (units' = units) by congruence. assert (tots' = tots) by congruence. subst units' tots'.
  exists units, tots, ps, eg, l, lo, w. repeat (split; [assumption|]). apply B3; auto.
  intros Hin. apply A4 in Hin. lia.
Qed.

(** The configurations of the recipe with the default prior: utterances of at
    least three frames are all that is needed. *)
Theorem C179_aud_training : forall enum sort amax eps conc nm noise ul group wid D mean var draw scale ds xs jobss,
  let conf := aud_phconf nonspeech_topology speech_topology nm noise in
  let lines := map (fun u : string * string => [fst u; snd u]) ul in
  aud_units ul group -> (1 <= nm)%nat -> features_ok D mean var -> (4 <= wid)%nat ->
  match conc with Some c => 0 <= c | None => True end ->
  is_enum enum -> (forall counts, sorts_desc counts (sort counts)) -> 0 <= scale -> (0 < ds)%nat ->
  Forall (fun x => lu_ali x = None /\ exists ys, lu_stats x = map (suff KDiag) ys /\ Forall (frame_ok KDiag D) ys /\ (3 <= length ys)%nat) xs ->
  xs <> [] -> Forall (shares xs) jobss ->
  exists units tots ps eg l lo w, mkphones_all mean var draw conf lines = Ok (units, tots, ps) /\ em_groups ps = Ok eg /\
    make_loop eps None conc (topologies conf) lines group wid = Ok (l, lo, units, tots) /\ wpar_of (lo_weights lo) = Some w /\
    let s := pw_init l w (em_state ps) in let wt := INR ds / INR (loop_frames xs) in
    forall n m, (n <= m <= length jobss)%nat ->
    exists s1 s2 v1 v2,
       loop_rounds enum sort amax scale ds l (em_set ps) wid eg 1 true xs (firstn n jobss) (s, None) = Ok (s1, v1) /\
       loop_rounds enum sort amax scale ds l (em_set ps) wid eg 1 true xs (firstn m jobss) (s, None) = Ok (s2, v2) /\
       pw_good KDiag D l (em_set ps) s2 /\
       (forall a, group = Some "non-speech-unit"%string -> In (a, "non-speech-unit"%string) ul ->
          (forall b, In (b, "non-speech-unit"%string) ul -> b = a) ->
          pw_drawn scale wt l (em_set ps) xs s1 <= pw_drawn scale wt l (em_set ps) xs s2).
Proof.
  intros enum sort amax eps conc nm noise ul group wid D mean var draw scale ds xs jobss conf lines Hu Hn Hf Hw Hconc He Hso Hs Hds Hx Hne Hj.
  assert (Hc := aud_config ul group Hu).
  assert (Ec : forall g t gc, In (g, (t, gc)) conf -> emconf_ok KDiag gc).
  { intros g t gc [Hg|[Hg|[]]]; injection Hg as <- <- <-; (split; [cbn; lia|]); (split; [cbn; lra|]); right; left; split; reflexivity. }
  destruct (config_emissions conf lines ul group D mean var draw KDiag Hc Hf Ec) as (units & tots & ps & E1 & E2 & A1 & A2 & A3 & A4 & eg & A5 & A6 & A7).
  destruct (C178_aud_training enum sort amax eps conc ul group wid KDiag D scale ds (em_set ps) (em_state ps) eg xs jobss
    Hu Hconc He Hso Hs Hds) as (l & lo & units' & tots' & w & B1 & B2 & B3).
  assert (B4 := make_phones _ _ _ _ _ _ _ _ _ _ _ B1). change (topologies conf) with aud_conf in *. fold lines in B1, B4.
  assert (units' = units) by congruence. assert (tots' = tots) by congruence. subst units' tots'.
  exists units, tots, ps, eg, l, lo, w. repeat (split; [assumption|]). apply B3; auto.
  - rewrite A1. apply (C178_aud_size ul group wid l units tots Hu). eapply make_built; eauto.
  - intros Hin. apply A4 in Hin. cbn in Hin. lia.
Qed.

(** A feature that never varies: mkphones raises with full covariance matrices,
    and with diagonal ones none of the Normals is proper. *)
Theorem C179_constant_refuted : forall i D mean var draw tot gc,
  length mean = D -> length var = D -> In 0 var -> (0 < tot)%nat -> (1 <= ec_n gc)%nat ->
  (ec_cov gc = "full"%string -> create_pdfs i mean var draw tot gc = Err RuntimeError) /\
  (ec_cov gc = "diagonal"%string -> exists p, create_pdfs i mean var draw tot gc = Ok p /\
     (0 < length (pd_normals p))%nat /\ forall c, In c (pd_normals p) -> ~ leaf_cell KDiag D c).
Proof.
  intros i D mean var draw tot gc Hm Hv Hz Ht Hn.
  set (C := fun a b : nat => if Nat.eqb a b then nth a var 0 else 0).
  assert (Hd : denotes D (T1 var) C) by now apply dn_diag.
  assert (Hdl : ~ dimensionless (T1 var)) by (intros (c & H); discriminate).
  apply (In_nth var 0 0) in Hz. destruct Hz as (z & Hz & Ez). rewrite Hv in Hz.
  assert (HN : (0 < tot * ec_n gc)%nat) by nia.
  unfold create_pdfs. rewrite Hm. split; intros Hcov; rewrite Hcov.
  - destruct (full_cov_ok D (T1 var) C Hd Hdl) as (M & E & HM & HMC).
    assert (Ef : default_full mean (T1 var) (ec_strength gc) = Err RuntimeError).
    { unfold default_full. rewrite Hm, E. cbn [t_inv]. destruct (t_inverse M) as [B|e] eqn:Ei.
      - exfalso. destruct (LMat.t_inverse_sound D M B HM Ei) as (_ & I1 & _). specialize (I1 z z Hz Hz).
        unfold mmul in I1. rewrite (bsum_zero D) in I1.
        + unfold idm in I1. destruct (Nat.eq_dec z z); [lra|congruence].
        + intros k Hk. rewrite HMC by auto. unfold C. destruct (Nat.eqb z k); rewrite ?Ez; ring.
      - cbn [bindr]. unfold t_inverse in Ei. destruct (forallb _ M); [|congruence]. destruct (minv (length M) (mget M)); congruence. }
    change (normalset_create mean (T1 var) (randn draw (tot * ec_n gc) D) (ec_strength gc) (ec_noise gc) "full")
      with (set_default default_full mean (T1 var) (randn draw (tot * ec_n gc) D) (ec_strength gc) (ec_noise gc)).
    unfold set_default. rewrite Hm, E. cbn [t_diag bindr]. rewrite Ef. unfold randn.
    destruct (tot * ec_n gc)%nat as [|N]; [lia|]. reflexivity.
  - assert (E := default_diag_ok D mean (T1 var) C (ec_strength gc) Hm Hd Hdl). cbv zeta in E.
    change (normalset_create mean (T1 var) (randn draw (tot * ec_n gc) D) (ec_strength gc) (ec_noise gc) "diagonal")
      with (set_default default_diag mean (T1 var) (randn draw (tot * ec_n gc) D) (ec_strength gc) (ec_noise gc)).
    rewrite (set_default_ok default_diag D mean (T1 var) C _ _ (ec_noise gc) _ Hm Hd Hdl E). cbn [bindr].
    destruct (Nat.eqb_spec tot 0); [lia|]. eexists. split; [reflexivity|]. cbn [pd_normals]. split.
    + rewrite !map_length, randn_length. exact HN.
    + intros c Hin. rewrite map_map in Hin. apply in_map_iff in Hin. destruct Hin as (e & <- & _).
      cbn [with_mean normal_cell bp_prior bp_post leaf_cell]. intros ((_ & _ & _ & _ & F) & _). cbn [ng_rates] in F.
      rewrite Forall_forall in F. assert (H0 : 0 < ec_strength gc * C z z).
      { apply F. apply in_map_iff. exists z. split; [reflexivity|]. apply in_seq. lia. }
      unfold C in H0. rewrite Nat.eqb_refl, Ez in H0. lra.
Qed.

(** Groups of different covariance types: mkphones succeeds, and the first frame
    raises. *)
Definition mixed_conf : phconf :=
  [("non-speech-unit", (nonspeech_topology, {| ec_n := 1; ec_strength := 1; ec_noise := 1; ec_cov := "full" |}));
   ("speech-unit", (speech_topology, {| ec_n := 2; ec_strength := 1; ec_noise := 1; ec_cov := "diagonal" |}))]%string.

Theorem C179_mixed_refuted : forall draw, exists units tots ps,
  mkphones_all [0; 0] [1; 1] draw mixed_conf [["sil"; "non-speech-unit"]; ["au1"; "speech-unit"]]%string = Ok (units, tots, ps) /\
  forall x, length x = 2%nat -> exists y, em_stats (map snd (emconfs mixed_conf)) x = Ok y /\ score (em_set ps) y = Err RuntimeError.
Proof.
  intros draw. destruct (aud_config ux_units _ ux_aud) as (Hconf & _ & _ & Hpop & Hnd & Hg & _ & _).
  destruct (C179_scores mixed_conf (map (fun u => [fst u; snd u]) ux_units) ux_units 2 [0; 0] [1; 1] draw)
    as (units & tots & ps & E & HS); auto.
  - intros gn t Ht. destruct (Hconf gn t Ht) as (_ & n & e & x & Hcn & _ & (He & _) & _). exists n. split; [lia|exact Hcn].
  - split; [lia|]. split; [reflexivity|]. split; [reflexivity|]. constructor; [lra|]. constructor; [lra|constructor].
  - intros g t gc [H|[H|[]]]; injection H as <- <- <-; [exists KFull|exists KDiag]; (split; [cbn; lia|]); (split; [cbn; lra|]).
    + left. split; reflexivity.
    + right. left. split; reflexivity.
  - constructor; [intros [H|[]]; discriminate|]. constructor; [intros []|constructor].
  - discriminate.
  - exists units, tots, ps. split; [exact E|]. intros x Hx. destruct (HS x Hx) as (y & Ey & _ & H2).
    exists y. split; [exact Ey|]. apply H2. split; [lia|]. intros (c & Hc).
    assert (A := Hc _ _ _ (or_introl eq_refl)). assert (B := Hc _ _ _ (or_intror (or_introl eq_refl))). cbn in A, B. congruence.
Qed.

(** The recipe with two Normals per state, on silence and one unit, from the
    statistics of two features *)
Example C179_ex : forall draw, exists units tots ps,
  mkphones_all [5; 0] [9; 4] draw (aud_phconf nonspeech_topology speech_topology 2 (1 / 10))
    [["sil"; "non-speech-unit"]; ["au1"; "speech-unit"]]%string = Ok (units, tots, ps) /\
  length (em_state ps 0%nat) = (nth 0 tots 0 * 10)%nat /\ length (em_state ps 3%nat) = nth 1 tots 0%nat /\
  forall j, (j < length (em_state ps 2%nat))%nat -> exists p q, nth j (em_state ps 2%nat) (CWeights [] []) = CDiag p q /\
    ng_mean p = [5; 0] /\ ng_mean q = [5 + 1 / 10 * 3 * draw 1%nat j 0%nat; 0 + 1 / 10 * 2 * draw 1%nat j 1%nat].
Proof.
  intros draw. destruct (aud_config ux_units _ ux_aud) as (Hconf & _ & _ & Hpop & Hnd & Hg & _ & _).
  set (conf := aud_phconf nonspeech_topology speech_topology 2 (1 / 10)).
  assert (Ec : forall g t gc, In (g, (t, gc)) conf -> emconf_ok KDiag gc).
  { intros g t gc [H|[H|[]]]; injection H as <- <- <-; (split; [cbn; lia|]); (split; [cbn; lra|]); right; left; split; reflexivity. }
  assert (Hem : forall g t, In (g, t) (topologies conf) -> has_emitting t).
  { intros gn t Ht. destruct (Hconf gn t Ht) as (_ & n & e & x & Hcn & _ & (He & _) & _). exists n. split; [lia|exact Hcn]. }
  assert (Hf : features_ok 2 [5; 0] [9; 4]).
  { split; [lia|]. split; [reflexivity|]. split; [reflexivity|]. constructor; [lra|]. constructor; [lra|constructor]. }
  assert (Hn2 : NoDup (map fst conf)).
  { constructor; [intros [H|[]]; discriminate|]. constructor; [intros []|constructor]. }
  destruct (C179_content conf (map (fun u => [fst u; snd u]) ux_units) ux_units 2 [5; 0] [9; 4] draw KDiag Hem Hpop (unit_lines _) Hnd Hg Hf Ec Hn2)
    as (units & tots & ps & E & _ & HC).
  destruct (C179_emissions conf (map (fun u => [fst u; snd u]) ux_units) ux_units 2 [5; 0] [9; 4] draw KDiag Hem Hpop (unit_lines _) Hnd Hg Hf Ec)
    as (units' & tots' & ps' & _ & E' & _).
  exists units, tots, ps. split; [exact E|].
  destruct (HC 0%nat _ _ _ eq_refl) as (_ & A2 & _). destruct (HC 1%nat _ _ _ eq_refl) as (B1 & _ & _ & B3 & B4).
  cbn [Nat.mul Nat.add] in A2, B1, B3, B4. split; [exact A2|]. split; [exact B1|].
  intros j Hj. specialize (B4 j Hj). assert (B5 := proj1 (Forall_forall _ _) B3 _ (nth_In _ (CWeights [] []) Hj)). cbn [aud_emconf ec_strength ec_noise] in B4.
  destruct (nth j (em_state ps 2%nat) (CWeights [] [])) as [p q|p q|p q|p q]; [|destruct B5|destruct B5|destruct B5].
  - exists p, q. split; [reflexivity|]. destruct B4 as (C1 & _ & _ & _ & (C5 & C6) & _). split; [exact C1|].
    assert (D0 := C6 0%nat ltac:(cbn; lia)). assert (D1 := C6 1%nat ltac:(cbn; lia)). cbn [nth length] in D0, D1, C5.
    replace 9 with (3 * 3) in D0 by ring. replace 4 with (2 * 2) in D1 by ring. rewrite sqrt_square in D0 by lra. rewrite sqrt_square in D1 by lra.
    destruct (ng_mean q) as [|a [|b [|]]]; try discriminate C5. cbn [nth] in D0, D1. now rewrite D0, D1.
Qed.

Print Assumptions C179_emissions.
Print Assumptions C179_content.
Print Assumptions C179_scores.
Print Assumptions C179_unigram_training.
Print Assumptions C179_bigram_training.
Print Assumptions C179_aud_training.
Print Assumptions C179_constant_refuted.
Print Assumptions C179_mixed_refuted.

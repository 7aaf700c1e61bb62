(** C183: from an archive of features to the units of its utterances. *)
From Coq Require Import Reals String List Arith Bool Lia Lra Permutation ZArith.
From Verif Require Import Prelude Vec Fe_Model Fe_Spec Fe_Props.
From Verif Require Import MF_Model MF_Proofs Edit_Model Edit_Proofs Dec_Model Dec_Spec Dec_Proofs Opt_Model Opt_Spec Opt_Proofs Opt_Pipe.
From Verif Require Import FB_Model FB_Spec Graph_Model Graph_Spec Gb_Model Gb_Spec Gb_Proofs Gb_Props Pa_Model Pa_Spec Pa_Proofs.
From Verif Require Import Lgamma Set_Model Set_Spec Set_Proofs
  HMM_Model HMM_Spec Dist_Model Dist_Spec Dist_Proofs Mat NW_Model NW_Spec
  SB_Model SB_Spec Sk_Model Sk_Spec Df_Model Df_Spec Df_Proofs Pl_Model
  Vt_Model Vt_Spec Vt_Proofs Vl_Model Vl_Spec Mx_Model Mx_Spec
  Pw_Model Pw_Spec Pw_Proofs Bg_Model Bg_Spec
  Dt_Model Dt_Spec Dl_Model Dl_Spec Db_Model Rp_Model Rp_Spec Rp_Proofs Rp_Props Em_Model Em_Spec Em_Proofs Em_Props
  De_Model De_Spec De_Proofs De_Props Ch_Model Ch_Spec.
Import ListNotations.
Local Open Scope R_scope.

(** ** The statistics of the archive *)
Lemma pow2_pos_ne x : x <> 0 -> 0 < x ^ 2.
Proof. intros H. assert (P := Rsqr_pos_lt x H). unfold Rsqr in P. lra. Qed.

Lemma constant_mean c v : forall frames : list (list R), frames <> [] -> Forall (fun x => nth c x 0 = v) frames ->
  col_mean c frames = v /\ col_var c frames = 0.
Proof.
  intros frames Hne Hf.
  assert (Hn : INR (length frames) <> 0) by (destruct frames; [congruence|]; apply not_0_INR; discriminate).
  assert (M : col_mean c frames = v).
  { unfold col_mean. rewrite (sumf_ext _ (fun _ => v)) by (intros x Hx; exact (proj1 (Forall_forall _ _) Hf x Hx)).
    rewrite sumf_const. now field. }
  split; [exact M|]. unfold col_var. rewrite M, sumf_zero; [unfold Rdiv; ring|].
  intros x Hx. rewrite (proj1 (Forall_forall _ _) Hf x Hx). ring.
Qed.

Lemma var_varies c frames : frames <> [] -> 0 < col_var c frames <-> varies c frames.
Proof.
  intros Hne. assert (Hn : 0 < INR (length frames)) by (destruct frames; [congruence|]; apply lt_0_INR; simpl; lia). split.
  - intros Hv. destruct frames as [|x0 frames]; [congruence|].
    destruct (Forall_Exists_dec (fun x => nth c x 0 = nth c x0 0) (fun x => Req_EM_T (nth c x 0) (nth c x0 0)) (x0 :: frames)) as [F|E].
    + destruct (constant_mean c _ _ Hne F) as (_ & E). lra.
    + apply Exists_exists in E. destruct E as (x & Hx & E). exists x, x0. split; [exact Hx|]. split; [now left|exact E].
  - intros (x & y & Hx & Hy & Hxy). unfold col_var. apply Rdiv_lt_0_compat; [|exact Hn].
    set (m := col_mean c frames).
    assert (P : forall z, In z frames -> 0 <= (nth c z 0 - m) ^ 2) by (intros; apply pow2_ge_0).
    destruct (Req_dec (nth c x 0) m) as [E|E].
    + apply (sumf_pos _ _ y); auto. apply pow2_pos_ne. lra.
    + apply (sumf_pos _ _ x); auto. apply pow2_pos_ne. lra.
Qed.

(** The variances of the data set are positive exactly for the features that vary. *)
Theorem C183_variance : forall dim utts cs c, concat utts <> [] -> Fe_Model.accumulate dim utts = Ok cs -> (c < dim)%nat ->
  (0 < nth c (cs_var cs) 0 <-> varies c (concat utts)).
Proof.
  intros dim utts cs c Hne E Hc. destruct (C53_pooled dim utts Hne) as (st & E' & _ & _ & _ & P).
  rewrite E in E'. injection E' as <-. destruct (P c Hc) as (_ & -> & _). now apply var_varies.
Qed.

Lemma archive_frames D utts : archive_ok D utts -> concat utts <> [] /\ columns utts = D.
Proof.
  intros (_ & Hne & Hf & _). destruct utts as [|u utts]; [congruence|]. inversion Hf as [|? ? (Hu & Hc) _]; subst.
  destruct u as [|x u]; [congruence|]. inversion Hc; subst. split; [discriminate|reflexivity].
Qed.

Lemma archive_features D utts : archive_ok D utts ->
  exists cs, Fe_Model.accumulate (columns utts) utts = Ok cs /\ features_ok D (cs_mean cs) (cs_var cs) /\ cs_count cs = length (concat utts).
Proof.
  intros H. destruct (archive_frames D utts H) as (Hne & ->). destruct H as (HD & _ & _ & Hv).
  destruct (C53_pooled D utts Hne) as (st & E & Ec & M & V & P). exists st. split; [exact E|]. split; [|exact Ec].
  split; [exact HD|]. split; [exact M|]. split; [exact V|]. apply Forall_forall. intros v Hin.
  destruct (In_nth _ _ 0 Hin) as (c & Hc & <-). rewrite V in Hc. apply (C183_variance D utts st c Hne E Hc). now apply Hv.
Qed.

Lemma kind_stats cov k : kind_of cov k -> cov_stats cov = suff k.
Proof. intros [[-> ->]|[[-> ->]|[-> ->]]]; reflexivity. Qed.

Lemma frames_count cov utts : loop_frames (map (utterance cov) utts) = length (concat utts).
Proof.
  unfold loop_frames. rewrite map_map. induction utts as [|u utts IH]; [reflexivity|].
  cbn [map list_sum fold_right concat]. rewrite app_length. unfold list_sum in IH. rewrite IH. cbn [utterance lu_stats]. now rewrite map_length.
Qed.

(** ** The chain of commands *)
(** Training succeeds whatever the number of rounds; the exact objective, with
    every frame counted once, never decreases when the loop begins with one unit;
    and the trained loop decodes every utterance it can produce. *)
Theorem C183_unigram : forall enum sort amax eps prior conc draw conf lines ul group wid k D scale lrate cov utts jobss,
  config_ok (topologies conf) lines ul group -> (forall g t, In (g, t) (topologies conf) -> entered_once t /\ no_dead_end t) ->
  (forall g t gc, In (g, (t, gc)) conf -> emconf_ok k gc /\ ec_cov gc = cov) -> (2 * length conf <= wid)%nat ->
  In prior unigram_priors -> match conc with Some c => 0 <= c | None => True end ->
  is_enum enum -> (forall counts, sorts_desc counts (sort counts)) -> 0 <= scale ->
  0 <= lrate <= 1 -> prior = Some "dirichlet"%string \/ lrate = 1 ->
  archive_ok D utts -> Forall (shares (map (utterance cov) utts)) jobss ->
  (forall units tots, mkphones (topologies conf) lines = Ok (units, tots) -> Forall (spoken k D group ul units) (map (utterance cov) utts)) ->
  let train := train_all enum sort amax eps prior conc draw conf lines group wid scale lrate cov utts in
  exists l units tots em, build_loop (topologies conf) lines group wid = Ok (l, units, tots) /\
    forall n m, (n <= m <= length jobss)%nat ->
    exists s1 s2, train (firstn n jobss) = Ok (l, units, em, s1) /\ train (firstn m jobss) = Ok (l, units, em, s2) /\
      (forall i0, one_initial (pl_graph l) i0 ->
         pw_drawn scale 1 l em (map (utterance cov) utts) s1 <= pw_drawn scale 1 l em (map (utterance cov) utts) s2) /\
      forall amax' scale' x, is_argmax amax' -> spoken k D group ul units x -> lu_ali x = None ->
        decodes amax' scale' group ul units l (inst (forms (pw_pars s2)) em) (pw_trans s2) x.
Proof.
  intros enum sort amax eps prior conc draw conf lines ul group wid k D scale lrate cov utts jobss H Hent Hgc Hw Hpr Hconc He Hso Hs Hlr Hr
    Har Hj Hsp train.
  destruct (archive_frames D utts Har) as (Hcn & _). destruct (archive_features D utts Har) as (cs & Ecs & Hf & Ect).
  assert (Hgc' : forall g t gc, In (g, (t, gc)) conf -> emconf_ok k gc) by (intros; eapply Hgc; eauto).
  set (xs := map (utterance cov) utts) in *.
  assert (Hds : (0 < cs_count cs)%nat) by (rewrite Ect; destruct (concat utts); [congruence|simpl; lia]).
  destruct (C179_unigram_training enum sort amax eps prior conc conf lines ul group wid k D (cs_mean cs) (cs_var cs) draw scale (cs_count cs) lrate xs jobss
    H Hf Hgc' Hw Hpr Hconc He Hso Hs Hds Hlr Hr) as (units & tots & ps & eg & l & lo & w & E1 & E2 & E3 & E4 & HT).
  assert (Emk := make_phones _ _ _ _ _ _ _ _ _ _ _ E3).
  assert (Hxs : Forall (spoken k D group ul units) xs) by (eapply Hsp; eauto).
  assert (Hne : xs <> []) by (destruct Har as (_ & Hne & _); unfold xs; destruct utts; [congruence|discriminate]).
  specialize (HT Hxs Hne Hj). cbv zeta in HT.
  assert (Ew : INR (cs_count cs) / INR (loop_frames xs) = 1).
  { unfold xs. rewrite frames_count, <- Ect. field. apply not_0_INR. lia. }
  rewrite Ew in HT.
  assert (Tr : forall js s v, loop_rounds enum sort amax scale (cs_count cs) l (em_set ps) wid eg lrate true xs js (pw_init l w (em_state ps), None) = Ok (s, v) ->
    train js = Ok (l, units, em_set ps, s)).
  { intros js s v E. unfold train, train_all. rewrite Ecs. cbn [bindr]. rewrite E1. cbn [bindr snd]. rewrite E2. cbn [bindr]. rewrite E3.
    cbn [bindr fst snd]. rewrite E4. fold xs. rewrite E. reflexivity. }
  assert (Eb := make_built _ _ _ _ _ _ _ _ _ _ _ E3).
  exists l, units, tots, (em_set ps). split; [exact Eb|]. intros n m Hnm. destruct (HT n m Hnm) as (s1 & s2 & v1 & v2 & R1 & R2 & G & _ & B).
  exists s1, s2. split; [now apply (Tr _ _ v1)|]. split; [now apply (Tr _ _ v2)|]. split; [exact B|].
  intros amax' scale' x Ha Hx Hali.
  destruct (config_emissions conf lines ul group D (cs_mean cs) (cs_var cs) draw k H Hf Hgc') as (u' & t' & p' & Q1 & Q2 & Q3 & _).
  rewrite E1 in Q2. injection Q2 as <- <- <-.
  destruct G as (G1 & _ & (_ & G3)).
  destruct (ends_leave _ _ _ _ _ _ _ _ H Eb) as (Hl & Hlt).
  apply (C182_loop amax' scale' (topologies conf) lines ul group wid l units tots k D); auto.
  apply (good_trans l _ (fun _ q => elog_weight (pw_weights s2) q)); auto.
  - apply loop_rounds_else in R2. cbn [fst] in R2. intros i j Hij. rewrite R2 by exact Hij. now apply unigram_other.
  - intros i q Hi Hq. cbv zeta. apply G3; [now apply nth_In|exact Hq].
Qed.

Theorem C183_bigram : forall enum amax eps prior conc draw conf lines ul group wid k D scale lrate cov utts jobss,
  config_ok (topologies conf) lines ul group -> (forall g t, In (g, t) (topologies conf) -> entered_once t /\ no_dead_end t) ->
  (forall g t gc, In (g, (t, gc)) conf -> emconf_ok k gc /\ ec_cov gc = cov) -> (2 * length conf <= wid)%nat ->
  In prior bigram_priors -> match conc with Some c => 0 <= c | None => True end -> 0 <= eps ->
  is_enum enum -> 0 <= scale -> 0 <= lrate <= 1 ->
  archive_ok D utts -> Forall (shares (map (utterance cov) utts)) jobss ->
  (forall units tots, mkphones (topologies conf) lines = Ok (units, tots) -> Forall (spoken k D group ul units) (map (utterance cov) utts)) ->
  let train := train_all_bigram enum amax eps prior conc draw conf lines group wid scale lrate cov utts in
  exists l units tots em, build_loop (topologies conf) lines group wid = Ok (l, units, tots) /\
    forall n m, (n <= m <= length jobss)%nat ->
    exists s1 s2, train (firstn n jobss) = Ok (l, units, em, s1) /\ train (firstn m jobss) = Ok (l, units, em, s2) /\
      (prior = Some "hierarchical_dirichlet_process"%string ->
         bg_bound scale 1 l em (map (utterance cov) utts) s1 <= bg_bound scale 1 l em (map (utterance cov) utts) s2) /\
      forall amax' scale' x, is_argmax amax' -> spoken k D group ul units x -> lu_ali x = None ->
        decodes amax' scale' group ul units l (inst (forms (bg_pars s2)) em) (bg_trans s2) x.
Proof.
  intros enum amax eps prior conc draw conf lines ul group wid k D scale lrate cov utts jobss H Hent Hgc Hw Hpr Hconc Heps He Hs Hlr
    Har Hj Hsp train.
  destruct (archive_frames D utts Har) as (Hcn & _). destruct (archive_features D utts Har) as (cs & Ecs & Hf & Ect).
  assert (Hgc' : forall g t gc, In (g, (t, gc)) conf -> emconf_ok k gc) by (intros; eapply Hgc; eauto).
  set (xs := map (utterance cov) utts) in *.
  assert (Hds : (0 < cs_count cs)%nat) by (rewrite Ect; destruct (concat utts); [congruence|simpl; lia]).
  destruct (C179_bigram_training enum amax eps prior conc conf lines ul group wid k D (cs_mean cs) (cs_var cs) draw scale (cs_count cs) lrate xs jobss
    H Hf Hgc' Hw Hpr Hconc Heps He Hs Hds Hlr) as (units & tots & ps & eg & l & lo & b & E1 & E2 & E3 & E4 & HT).
  assert (Emk := make_phones _ _ _ _ _ _ _ _ _ _ _ E3).
  assert (Hxs : Forall (fun x => lu_ali x = None /\ spoken k D group ul units x) xs).
  { apply Forall_forall. intros x Hx. split; [|exact (proj1 (Forall_forall _ _) (Hsp units tots Emk) x Hx)].
    unfold xs in Hx. apply in_map_iff in Hx. destruct Hx as (u & <- & _). reflexivity. }
  assert (Hne : xs <> []) by (destruct Har as (_ & Hne & _); unfold xs; destruct utts; [congruence|discriminate]).
  specialize (HT Hxs Hne Hj). cbv zeta in HT.
  assert (Ew : INR (cs_count cs) / INR (loop_frames xs) = 1).
  { unfold xs. rewrite frames_count, <- Ect. field. apply not_0_INR. lia. }
  rewrite Ew in HT.
  assert (Tr : forall js s v, bg_rounds enum amax scale (cs_count cs) l (em_set ps) wid eg lrate true xs js (bg_init l b (em_state ps), None) = Ok (s, v) ->
    train js = Ok (l, units, em_set ps, s)).
  { intros js s v E. unfold train, train_all_bigram. rewrite Ecs. cbn [bindr]. rewrite E1. cbn [bindr snd]. rewrite E2. cbn [bindr]. rewrite E3.
    cbn [bindr fst snd]. rewrite E4. fold xs. rewrite E. reflexivity. }
  assert (Eb := make_built _ _ _ _ _ _ _ _ _ _ _ E3).
  exists l, units, tots, (em_set ps). split; [exact Eb|]. intros n m Hnm. destruct (HT n m Hnm) as (s1 & s2 & v1 & v2 & R1 & R2 & G & B).
  exists s1, s2. split; [now apply (Tr _ _ v1)|]. split; [now apply (Tr _ _ v2)|]. split; [exact B|].
  intros amax' scale' x Ha Hx Hali.
  destruct (config_emissions conf lines ul group D (cs_mean cs) (cs_var cs) draw k H Hf Hgc') as (u' & t' & p' & Q1 & Q2 & Q3 & _).
  rewrite E1 in Q2. injection Q2 as <- <- <-.
  destruct G as (G1 & _ & (_ & G3)).
  destruct (ends_leave _ _ _ _ _ _ _ _ H Eb) as (Hl & Hlt).
  apply (C182_loop amax' scale' (topologies conf) lines ul group wid l units tots k D); auto.
  apply (good_trans l _ (elog_used (length (pl_starts l)) (bg_set s2))); auto.
  apply bg_rounds_else in R2. cbn [fst] in R2. intros i j Hij. rewrite R2 by exact Hij. now apply bigram_other.
Qed.

(** ** The recipes *)
Lemma decode_all_ok amax scale per cov l units em s (P : list (list R) -> list string -> Prop) : forall utts,
  Forall (fun u => exists sq, decode_utt amax scale per (inst (forms (pw_pars s)) em) l (map fst units) (pw_trans s) (utterance cov u) = Ok sq /\ P u sq) utts ->
  exists sqs, decode_all amax scale per cov (l, units, em, s) utts = Ok sqs /\ Forall2 P utts sqs.
Proof.
  unfold decode_all. induction 1 as [|u utts (sq & E & Hp) _ (sqs & E' & F)]; [exists []; split; [reflexivity|constructor]|].
  exists (sq :: sqs). split; [|now constructor]. cbn [mapM]. rewrite E. cbn [bindr]. rewrite E'. reflexivity.
Qed.

(** Any archive of utterances of three frames or more, none of whose features is
    constant: the commands of the recipe succeed whatever the numbers drawn and
    the number of rounds, and every utterance of another archive (or of this one)
    gets the units of its most likely path. *)
Theorem C183_aud : forall enum sort amax eps conc nm noise draw ul group wid D scale utts jobss,
  let conf := aud_phconf nonspeech_topology speech_topology nm noise in
  let lines := map (fun u : string * string => [fst u; snd u]) ul in
  aud_units ul group -> (1 <= nm)%nat -> (4 <= wid)%nat -> match conc with Some c => 0 <= c | None => True end ->
  is_enum enum -> (forall counts, sorts_desc counts (sort counts)) -> 0 <= scale ->
  archive_ok D utts -> Forall (fun u => (3 <= length u)%nat) utts -> Forall (shares (map (utterance "diagonal") utts)) jobss ->
  let train := train_all enum sort amax eps None conc draw conf lines group wid scale 1 "diagonal" utts in
  exists l units em, forall n m, (n <= m <= length jobss)%nat ->
    exists s1 s2, train (firstn n jobss) = Ok (l, units, em, s1) /\ train (firstn m jobss) = Ok (l, units, em, s2) /\
      (forall a, group = Some "non-speech-unit"%string -> In (a, "non-speech-unit"%string) ul ->
         (forall b, In (b, "non-speech-unit"%string) ul -> b = a) ->
         pw_drawn scale 1 l em (map (utterance "diagonal") utts) s1 <= pw_drawn scale 1 l em (map (utterance "diagonal") utts) s2) /\
      forall amax' scale' utts', is_argmax amax' -> Forall (fun u => (3 <= length u)%nat /\ Forall (fun x => length x = D) u) utts' ->
        exists sqs, decode_all amax' scale' false "diagonal" (l, units, em, s2) utts' = Ok sqs /\
          Forall2 (fun u sq => loop_seq group ul sq /\
            exists path lss, most_likely (with_trans (pl_graph l) (pw_trans s2))
                (HMM_Spec.frames scale' (denote (inst (forms (pw_pars s2)) em)) (map (suff KDiag) u)) path /\
              reads units sq lss path) utts' sqs.
Proof.
  intros enum sort amax eps conc nm noise draw ul group wid D scale utts jobss conf lines Hu Hnm Hwid Hconc He Hso Hs Har H3 Hj train.
  assert (Hcf := aud_config ul group Hu). fold lines in Hcf.
  assert (Hsp : forall l units tots u, build_loop aud_conf lines group wid = Ok (l, units, tots) -> (3 <= length u)%nat -> Forall (fun x => length x = D) u ->
    spoken KDiag D group ul units (utterance "diagonal" u)).
  { intros l units tots u E Hl Hc. apply (C178_aud_frames ul group wid KDiag D (utterance "diagonal" u) u l units tots); auto.
    - eapply Forall_impl; [|exact Hc]. intros x Hx. split; [exact Hx|exact I].
    - intros ->. simpl in Hl. lia. }
  destruct (C183_unigram enum sort amax eps None conc draw conf lines ul group wid KDiag D scale 1 "diagonal" utts jobss)
    as (l & units & tots & em & Eb & HT); auto.
  { exact aud_entered. }
  { intros g t gc [Hg|[Hg|[]]]; injection Hg as <- <- <-; (split; [|reflexivity]); (split; [cbn; lia|]); (split; [cbn; lra|]); right; left; split; reflexivity. }
  { simpl. tauto. }
  { lra. }
  { intros units tots E. change (topologies conf) with aud_conf in E. destruct (C178_loop aud_conf lines ul group wid Hcf) as (l & units' & tots' & Eb & _).
    assert (Eb' := Eb). unfold build_loop in Eb'. apply bindr_inv in Eb'. destruct Eb' as ([u' t'] & Em & Eb').
    assert (u' = units) by congruence. subst u'.
    assert (units' = units).
    { apply bindr_inv in Eb'. destruct Eb' as (? & _ & Eb'). apply bindr_inv in Eb'. destruct Eb' as (? & _ & Eb').
      apply bindr_inv in Eb'. destruct Eb' as (? & _ & Eb'). apply bindr_inv in Eb'. destruct Eb' as (? & _ & Eb').
      apply bindr_inv in Eb'. destruct Eb' as (? & _ & Eb'). cbn [fst snd] in Eb'. congruence. }
    subst units'. apply Forall_map. destruct Har as (_ & _ & Hf & _). apply Forall_forall. intros u Hin.
    apply (Hsp l units tots' u Eb); [exact (proj1 (Forall_forall _ _) H3 u Hin)|].
    exact (proj2 (proj1 (Forall_forall _ _) Hf u Hin)). }
  exists l, units, em. intros n m Hm. destruct (HT n m Hm) as (s1 & s2 & A1 & A2 & A3 & A4).
  exists s1, s2. split; [exact A1|]. split; [exact A2|]. split.
  - intros a -> Ha Hun.
    destruct (C178_one_start aud_conf _ ul "non-speech-unit"%string wid a l units tots Hcf) as (i0 & h & _ & _ & Hi); auto.
    { intros g t Ht. now apply (aud_entered g). }
    exact (A3 i0 Hi).
  - intros amax' scale' utts' Ha' Hf'. apply decode_all_ok. eapply Forall_impl; [|exact Hf']. intros u (U1 & U2).
    destruct (A4 amax' scale' (utterance "diagonal" u) Ha') as (path & sq & lss & _ & B1 & B2 & B3 & B4 & _); auto.
    { now apply (Hsp l units tots). }
    exists sq. split; [exact B4|]. split; [exact B2|]. exists path, lss. split; [exact B1|exact B3].
Qed.

(** A feature that never varies, with full covariance matrices: the chain stops at
    mkphones. *)
Theorem C183_constant_refuted : forall enum sort amax eps prior conc draw g t gc conf lines ul group wid D scale lrate cov utts jobss c,
  config_ok (topologies ((g, (t, gc)) :: conf)) lines ul group -> NoDup (map fst ((g, (t, gc)) :: conf)) ->
  ec_cov gc = "full"%string -> (1 <= ec_n gc)%nat -> Forall (fun u => u <> [] /\ Forall (fun x => length x = D) u) utts -> utts <> [] ->
  (c < D)%nat -> ~ varies c (concat utts) ->
  train_all enum sort amax eps prior conc draw ((g, (t, gc)) :: conf) lines group wid scale lrate cov utts jobss = Err RuntimeError.
Proof.
  intros enum sort amax eps prior conc draw g t gc conf lines ul group wid D scale lrate cov utts jobss c H Hnd Hcov Hn Hf Hne Hc Hv.
  assert (Har : concat utts <> [] /\ columns utts = D).
  { destruct utts as [|u utts]; [congruence|]. inversion Hf as [|? ? (Hu & Hcl) _]; subst.
    destruct u as [|x u]; [congruence|]. inversion Hcl; subst. split; [discriminate|reflexivity]. }
  destruct Har as (Hcn & Hcol). unfold train_all. rewrite Hcol.
  destruct (C53_pooled D utts Hcn) as (cs & E & _ & M & V & P). rewrite E. cbn [bindr].
  assert (Hz : In 0 (cs_var cs)).
  { destruct (P c Hc) as (_ & Pv & Pn). assert (Hz : nth c (cs_var cs) 0 = 0).
    { destruct (Rle_lt_or_eq_dec 0 (nth c (cs_var cs) 0) Pn) as [L|L]; [|congruence]. exfalso. apply Hv. now apply (C183_variance D utts cs c). }
    rewrite <- Hz. apply nth_In. lia. }
  destruct (C178_loop _ _ _ _ 0%nat H) as (l & units & tots & Eb & _). unfold build_loop in Eb. apply bindr_inv in Eb. destruct Eb as ([u t0] & Em & _).
  assert (Ee := emconfs_distinct _ Hnd). cbn [map snd] in Ee.
  assert (Ht := mkphones_tots _ _ _ _ Em). assert (Lt : length t0 = length (map snd (emconfs ((g, (t, gc)) :: conf)))).
  { destruct H as (Hconf & -> & _ & Hpop & Hn1 & Hg & _). rewrite map_length, <- groups_length.
    destruct (mkphones_spec (topologies ((g, (t, gc)) :: conf)) (map (fun u => [fst u; snd u]) ul) ul) as (un & to & E' & _ & _ & L & _); auto.
    - intros gn t1 Ht1. destruct (Hconf gn t1 Ht1) as (_ & n & e & x & Hcn' & _ & (He & _) & _). exists n. split; [lia|exact Hcn'].
    - apply unit_lines.
    - rewrite Em in E'. congruence. }
  unfold mkphones_all. rewrite Em. cbn [bindr snd fst]. rewrite Ee in *. destruct t0 as [|tot t0]; [discriminate Lt|].
  inversion Ht; subst. cbn [create_all].
  destruct (C179_constant_refuted 0 (length (cs_mean cs)) (cs_mean cs) (cs_var cs) (draw 0%nat) tot gc) as (R & _); auto.
  { lia. }
  rewrite (R Hcov). reflexivity.
Qed.

Lemma train_built enum sort amax eps prior conc draw conf lines group wid scale lrate cov utts jobss l units em s :
  train_all enum sort amax eps prior conc draw conf lines group wid scale lrate cov utts jobss = Ok (l, units, em, s) ->
  exists tots, build_loop (topologies conf) lines group wid = Ok (l, units, tots).
Proof.
  intros A. unfold train_all in A. apply bindr_inv in A. destruct A as (cs & _ & A). apply bindr_inv in A. destruct A as (up & _ & A).
  apply bindr_inv in A. destruct A as (eg & _ & A). apply bindr_inv in A. destruct A as ([[[l' lo] un] to] & A1 & A). cbn [fst snd] in A.
  destruct (wpar_of (lo_weights lo)); [|discriminate]. apply bindr_inv in A. destruct A as (sv & _ & A).
  exists to. apply make_built in A1. injection A as -> -> _ _. exact A1.
Qed.

Lemma three_frames ul group wid l units tots a sq lss path : aud_units ul group ->
  build_loop aud_conf (map (fun u : string * string => [fst u; snd u]) ul) group wid = Ok (l, units, tots) ->
  hd_error sq = Some a -> reads units sq lss path -> length path = 3%nat -> sq = [a].
Proof.
  intros Hu Eb S1 (hs & F1 & F2 & Ep) M. assert (Hcfg := aud_config ul _ Hu).
  assert (Two : forall n h ls, In (n, h) units -> Gb_Spec.accepts h ls -> (2 <= length ls)%nat).
  { intros n h ls Hin Hacc.
    destruct (units_are _ _ _ _ _ _ _ _ Hcfg aud_entered Eb n h Hin) as (t & k & m & e & x & H1 & H2 & H3 & H4 & H5 & H6 & H7 & _ & ->).
    destruct (unit_visit t k m e x H1 H3 H4 H5 H6 H7 ls Hacc) as (q & rest & -> & Hr & _).
    destruct rest; [contradiction|]. cbn [length]. rewrite app_length. cbn [length]. lia. }
  destruct sq as [|n1 [|n2 sq]]; [discriminate S1|now injection S1 as ->|].
  exfalso. inversion F1 as [|? h1 ? hs1 I1 F1']; subst. inversion F1' as [|? h2 ? hs2 I2 F1'']; subst.
  inversion F2 as [|? l1 ? ls1 A1 F2']; subst. inversion F2' as [|? l2 ? ls2 A2 F2'']; subst.
  assert (M1 := Two _ _ _ I1 A1). assert (M2 := Two _ _ _ I2 A2). cbn [concat] in M. rewrite !app_length in M. lia.
Qed.

(** Silence and one unit, one feature, an utterance of three frames and one of
    five: after one round of training three frames are silence. *)
Definition cx_utts : list (list (list R)) := [[[0]; [3]; [5]]; [[1]; [1]; [4]; [4]; [7]]].

Lemma cx_archive : archive_ok 1 cx_utts.
Proof.
  split; [lia|]. split; [discriminate|]. split.
  - repeat (apply Forall_cons; [split; [discriminate|repeat constructor]|]). apply Forall_nil.
  - intros c Hc. assert (c = 0%nat) by lia. subst c. exists [0], [3]. split; [now left|]. split; [right; now left|]. cbn [nth]. lra.
Qed.

Lemma sil_only ul group sq : aud_units ul group -> group = Some "non-speech-unit"%string ->
  (forall b, In (b, "non-speech-unit"%string) ul -> b = "sil"%string) -> loop_seq group ul sq -> hd_error sq = Some "sil"%string.
Proof. intros _ -> Hun (_ & a & b & S1 & _ & S3 & _). now rewrite S1, (Hun a S3). Qed.

Example C183_ex : forall enum sort amax draw, is_enum enum -> (forall counts, sorts_desc counts (sort counts)) -> is_argmax amax ->
  exists t, train_all enum sort amax 1 None None draw (aud_phconf nonspeech_topology speech_topology 2 1)
      (map (fun u : string * string => [fst u; snd u]) ux_units) (Some "non-speech-unit"%string) 4 1 1 "diagonal" cx_utts [[[1]; [0]]]%nat = Ok t /\
    decode_all amax 1 false "diagonal" t [[[2]; [2]; [2]]] = Ok [["sil"]]%string.
Proof.
  intros enum sort amax draw He Hso Ha.
  destruct (C183_aud enum sort amax 1 None 2 1 draw ux_units (Some "non-speech-unit"%string) 4 1 1 cx_utts [[[1]; [0]]]%nat ux_aud
    ltac:(lia) (le_n 4) I He Hso Rle_0_1 cx_archive) as (l & units & em & HT).
  { repeat (apply Forall_cons; [apply Nat.leb_le; reflexivity|]). apply Forall_nil. }
  { constructor; [apply perm_swap|constructor]. }
  destruct (HT 1%nat 1%nat (conj (le_n 1) (le_n 1))) as (_ & s & _ & A & _ & B). cbn [firstn] in A. clear HT.
  exists (l, units, em, s). split; [exact A|].
  destruct (B amax 1 [[[2]; [2]; [2]]] Ha) as (sqs & D & F).
  { constructor; [|constructor]. split; [apply le_n|]. repeat constructor. }
  clear B. destruct (train_built _ _ _ _ _ _ _ _ _ _ _ _ _ _ _ _ _ _ _ _ A) as (tots & Eb). clear A.
  rewrite D. clear D. inversion F as [|u sq us r (Hsq & path & lss & (M & _) & Rd) F' Eu Er]. inversion F' as [Eu' Er'|]. clear F.
  f_equal. f_equal. apply in_paths in M. destruct M as (M & _). unfold HMM_Spec.frames in M. rewrite !map_length in M.
  apply (three_frames ux_units (Some "non-speech-unit"%string) 4 l units tots "sil"%string sq lss path ux_aud Eb); [|exact Rd|exact M].
  apply (sil_only ux_units (Some "non-speech-unit"%string) sq ux_aud eq_refl); [|exact Hsq].
  intros b [Hb|[Hb|[]]]; [congruence|discriminate Hb].
Qed.

Print Assumptions C183_variance.
Print Assumptions C183_unigram.
Print Assumptions C183_bigram.
Print Assumptions C183_aud.
Print Assumptions C183_constant_refuted.

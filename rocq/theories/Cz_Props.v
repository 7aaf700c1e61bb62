(** C191: acoustic unit discovery converges, from the archive of features. *)
From Coq Require Import Reals String List Arith Bool Lia Lra Permutation ZArith.
From Verif Require Import Prelude Vec Fe_Model Fe_Spec Fe_Props.
From Verif Require Import MF_Model MF_Proofs Edit_Model Edit_Proofs Dec_Model Dec_Spec Dec_Proofs Opt_Model Opt_Spec Opt_Proofs Opt_Pipe.
From Verif Require Import FB_Model FB_Spec Graph_Model Graph_Spec Gb_Model Gb_Spec Graph_Hist Gb_Proofs Gb_Props Pa_Model Pa_Spec Pa_Proofs Pa_Rank Pa_Props.
From Verif Require Import Lgamma Set_Model Set_Spec Set_Proofs
  HMM_Model HMM_Spec Dist_Model Dist_Spec Dist_Proofs Mat NW_Model NW_Spec
  SB_Model SB_Spec Sk_Model Sk_Spec Df_Model Df_Spec Df_Proofs Pl_Model
  Vt_Model Vt_Spec Vt_Proofs Vl_Model Vl_Spec Mx_Model Mx_Spec
  Pw_Model Pw_Spec Pw_Proofs Bg_Model Bg_Spec Bg_Props
  Dt_Model Dt_Spec Dl_Model Dl_Spec Dl_Props Db_Model Db_Props Rp_Model Rp_Spec Rp_Proofs Rp_Props Em_Model Em_Spec Em_Proofs Em_Props
  De_Model De_Spec De_Proofs De_Props Ch_Model Ch_Spec Ch_Props Na_Model Na_Spec Na_Proofs Na_Props Mo_Model Mo_Spec Mo_Props Cw_Spec Cw_Props Cy_Props.
Import ListNotations.
Local Open Scope R_scope.

(** Rounds of `beer hmm accumulate` and `beer hmm update` on a bigram loop with
    the hierarchical Dirichlet process. *)
Theorem C191_bigram_rounds : forall enum amax k D scale ds l skel wid eg lrate xs (jobs : nat -> list (list nat)) s,
  is_enum enum -> 0 <= scale -> (0 < ds)%nat ->
  NoDup (params skel) -> bg_loop_ok l -> ~ In wid (params skel) ->
  Forall (@NoDup nat) eg -> incl (concat eg) (params skel) -> by_sticks (bg_set s) ->
  bg_good k D l skel s -> Forall (bg_utt_ok k D l skel s) xs -> xs <> [] -> 0 <= lrate <= 1 ->
  (forall n, shares xs (jobs n)) ->
  let b := fun x : bgst * option (R * nat) => bg_bound scale (INR ds / INR (loop_frames xs)) l skel xs (fst x) in
  exists (run : nat -> bgst * option (R * nat)) (L : R),
    (forall n, bg_rounds enum amax scale ds l skel wid eg lrate true xs (map jobs (seq 0 n)) (s, None) = Ok (run n)) /\
    (forall n, b (run n) <= b (run (S n)) <= L) /\ Un_cv (fun n => b (run n)) L.
Proof.
  intros enum amax k D scale ds l skel wid eg lrate xs jobs s He Hs Hd Hnd Hlo Hwid Hgn Hgi Hby G HU Hne Hr Hsp b.
  assert (Hw := loop_weight_nonneg ds xs). unfold b. set (w := INR ds / INR (loop_frames xs)) in *.
  destruct (C188_bigram_converges amax k D scale w (loop_turn eg lrate) l skel xs s Hs Hw Hnd Hlo Hby G HU (fun _ => Hr))
    as (run & L & HR & HL & HC).
  set (rd := fun n => bg_rounds enum amax scale ds l skel wid eg lrate true xs (map jobs (seq 0 n)) (s, None)).
  assert (HE : forall n, exists v, rd n = Ok (run n, v)).
  { intros n. destruct (C177_training enum amax k D scale ds l skel wid eg lrate xs (map jobs (seq 0 n)) s He Hs Hd Hnd Hlo Hwid Hgn Hgi G HU Hne Hr) with (n := n) (m := n)
      as (s1 & s2 & v1 & v2 & E & _ & Et & _).
    - apply Forall_map, Forall_forall. auto.
    - rewrite map_length, seq_length. lia.
    - rewrite firstn_all2 in E by (rewrite map_length, seq_length; lia). fold w in Et. unfold loop_turns in Et.
      rewrite HR in Et. injection Et as Et. subst s1. now exists v1. }
  exists (fun n => match rd n with Ok x => x | Err _ => (s, None) end), L.
  assert (HF : forall n, fst (match rd n with Ok x => x | Err _ => (s, None) end) = run n) by (intros n; destruct (HE n) as (v & ->); reflexivity).
  split; [|split].
  - intros n. fold (rd n). destruct (HE n) as (v & ->). reflexivity.
  - intros n. rewrite !HF. apply HL.
  - intros eps H. destruct (HC eps H) as (N & HN). exists N. intros n Hn. rewrite HF. now apply HN.
Qed.

(** The commands one after the other, from the archive of features; the rounds of
    training never end. *)
Theorem C191_unigram : forall enum sort amax eps prior conc draw conf lines ul group wid k D scale lrate cov utts (jobs : nat -> list (list nat)),
  config_ok (topologies conf) lines ul group ->
  (forall g t gc, In (g, (t, gc)) conf -> emconf_ok k gc /\ ec_cov gc = cov) -> (2 * length conf <= wid)%nat ->
  In prior unigram_priors -> match conc with Some c => 0 <= c | None => True end ->
  is_enum enum -> (forall counts, sorts_desc counts (sort counts)) -> 0 <= scale ->
  0 <= lrate <= 1 -> prior = Some "dirichlet"%string \/ lrate = 1 ->
  archive_ok D utts -> (forall n, shares (map (utterance cov) utts) (jobs n)) ->
  (forall units tots, mkphones (topologies conf) lines = Ok (units, tots) -> Forall (spoken k D group ul units) (map (utterance cov) utts)) ->
  let train := fun n => train_all enum sort amax eps prior conc draw conf lines group wid scale lrate cov utts (map jobs (seq 0 n)) in
  exists l units tots em (run : nat -> pwst),
    build_loop (topologies conf) lines group wid = Ok (l, units, tots) /\
    (forall n, train n = Ok (l, units, em, run n)) /\
    forall i0, one_initial (pl_graph l) i0 ->
      let b := fun s => pw_drawn scale 1 l em (map (utterance cov) utts) s in
      exists L, (forall n, b (run n) <= b (run (S n)) <= L) /\ Un_cv (fun n => b (run n)) L.
Proof.
  intros enum sort amax eps prior conc draw conf lines ul group wid k D scale lrate cov utts jobs H Hgc Hw Hpr Hconc He Hso Hs Hlr Hr
    Har Hj Hsp train.
  destruct (archive_frames D utts Har) as (Hcn & _). destruct (archive_features D utts Har) as (cs & Ecs & Hf & Ect).
  assert (Hgc' : forall g t gc, In (g, (t, gc)) conf -> emconf_ok k gc) by (intros; eapply Hgc; eauto).
  set (xs := map (utterance cov) utts) in *.
  assert (Hds : (0 < cs_count cs)%nat) by (rewrite Ect; destruct (concat utts); [congruence|simpl; lia]).
  destruct (config_emissions conf lines ul group D (cs_mean cs) (cs_var cs) draw k H Hf Hgc') as (units & tots & ps & Q1 & Q2 & A1 & A2 & A3 & A4 & eg & A5 & A6 & A7).
  destruct (C178_unigram eps prior conc (topologies conf) lines ul group wid H Hpr Hconc) as (l & lo & units' & tots' & w & E1 & E2 & Hl & _ & Ew & Hdir & HT).
  assert (B4 := make_phones _ _ _ _ _ _ _ _ _ _ _ E1). assert (units' = units) by congruence. assert (tots' = tots) by congruence. subst units' tots'.
  destruct (HT k D (em_set ps) (em_state ps) A1 A2) as (_ & G & HU).
  assert (Hxs : Forall (spoken k D group ul units) xs) by (eapply Hsp; eauto).
  assert (Hne : xs <> []) by (destruct Har as (_ & Hne & _); unfold xs; destruct utts; [congruence|discriminate]).
  assert (Ewt : INR (cs_count cs) / INR (loop_frames xs) = 1).
  { unfold xs. rewrite frames_count, <- Ect. field. apply not_0_INR. lia. }
  destruct (C190_loop enum sort amax k D scale (cs_count cs) l (em_set ps) wid eg lrate xs jobs (pw_init l w (em_state ps)))
    as (run & HR & _ & HC); auto.
  { intros Hin. apply A4 in Hin. lia. }
  { eapply Forall_impl; [|exact Hxs]. exact HU. }
  { split; [exact Hlr|]. intros _. unfold pw_init. cbn [pw_weights]. destruct Hr as [Hp| ->]; [|destruct w; auto].
    destruct (Hdir Hp) as (p & q & ->). exact I. }
  exists l, units, tots, (em_set ps), (fun n => fst (run n)). split; [exact (make_built _ _ _ _ _ _ _ _ _ _ _ E1)|]. split.
  - intros n. unfold train, train_all. rewrite Ecs. cbn [bindr]. rewrite Q2. cbn [bindr snd]. rewrite A5. cbn [bindr]. rewrite E1.
    cbn [bindr fst snd]. rewrite Ew. fold xs. rewrite HR. reflexivity.
  - intros i0 Hi. rewrite Ewt in HC. exact (HC i0 Hi).
Qed.

Theorem C191_bigram : forall enum amax eps conc draw conf lines ul group wid k D scale lrate cov utts (jobs : nat -> list (list nat)),
  config_ok (topologies conf) lines ul group ->
  (forall g t gc, In (g, (t, gc)) conf -> emconf_ok k gc /\ ec_cov gc = cov) -> (2 * length conf <= wid)%nat ->
  match conc with Some c => 0 <= c | None => True end -> 0 <= eps ->
  is_enum enum -> 0 <= scale -> 0 <= lrate <= 1 ->
  archive_ok D utts -> (forall n, shares (map (utterance cov) utts) (jobs n)) ->
  (forall units tots, mkphones (topologies conf) lines = Ok (units, tots) -> Forall (spoken k D group ul units) (map (utterance cov) utts)) ->
  let prior := Some "hierarchical_dirichlet_process"%string in
  let train := fun n => train_all_bigram enum amax eps prior conc draw conf lines group wid scale lrate cov utts (map jobs (seq 0 n)) in
  exists l units tots em (run : nat -> bgst) (L : R),
    build_loop (topologies conf) lines group wid = Ok (l, units, tots) /\
    let b := fun s => bg_bound scale 1 l em (map (utterance cov) utts) s in
    (forall n, train n = Ok (l, units, em, run n)) /\
    (forall n, b (run n) <= b (run (S n)) <= L) /\ Un_cv (fun n => b (run n)) L.
Proof.
  intros enum amax eps conc draw conf lines ul group wid k D scale lrate cov utts jobs H Hgc Hw Hconc Heps He Hs Hlr
    Har Hj Hsp prior train.
  destruct (archive_frames D utts Har) as (Hcn & _). destruct (archive_features D utts Har) as (cs & Ecs & Hf & Ect).
  assert (Hgc' : forall g t gc, In (g, (t, gc)) conf -> emconf_ok k gc) by (intros; eapply Hgc; eauto).
  set (xs := map (utterance cov) utts) in *.
  assert (Hds : (0 < cs_count cs)%nat) by (rewrite Ect; destruct (concat utts); [congruence|simpl; lia]).
  assert (Hpr : In prior bigram_priors) by (unfold prior, bigram_priors; simpl; tauto).
  destruct (config_emissions conf lines ul group D (cs_mean cs) (cs_var cs) draw k H Hf Hgc') as (units & tots & ps & Q1 & Q2 & A1 & A2 & A3 & A4 & eg & A5 & A6 & A7).
  destruct (C178_bigram eps prior conc (topologies conf) lines ul group wid H Hpr Hconc Heps) as (l & lo & units' & tots' & b & E1 & E2 & Hl & _ & Ew & Hby & HT).
  assert (B4 := make_phones _ _ _ _ _ _ _ _ _ _ _ E1). assert (units' = units) by congruence. assert (tots' = tots) by congruence. subst units' tots'.
  destruct (HT k D (em_set ps) (em_state ps) A1 A2) as (_ & G & HU).
  assert (Hxs : Forall (fun x => lu_ali x = None /\ spoken k D group ul units x) xs).
  { apply Forall_forall. intros x Hx. split; [|exact (proj1 (Forall_forall _ _) (Hsp units tots Q1) x Hx)].
    unfold xs in Hx. apply in_map_iff in Hx. destruct Hx as (u & <- & _). reflexivity. }
  assert (Hne : xs <> []) by (destruct Har as (_ & Hne & _); unfold xs; destruct utts; [congruence|discriminate]).
  assert (Ewt : INR (cs_count cs) / INR (loop_frames xs) = 1).
  { unfold xs. rewrite frames_count, <- Ect. field. apply not_0_INR. lia. }
  destruct (C191_bigram_rounds enum amax k D scale (cs_count cs) l (em_set ps) wid eg lrate xs jobs (bg_init l b (em_state ps)))
    as (run & L & HR & HL & HC); auto.
  { intros Hin. apply A4 in Hin. lia. }
  { now apply Hby. }
  { eapply Forall_impl; [|exact Hxs]. intros x (X1 & X2). now apply HU. }
  rewrite Ewt in HL, HC.
  exists l, units, tots, (em_set ps), (fun n => fst (run n)), L. split; [exact (make_built _ _ _ _ _ _ _ _ _ _ _ E1)|]. split.
  - intros n. unfold train, train_all_bigram. rewrite Ecs. cbn [bindr]. rewrite Q2. cbn [bindr snd]. rewrite A5. cbn [bindr]. rewrite E1.
    cbn [bindr fst snd]. rewrite Ew. fold xs. rewrite HR. reflexivity.
  - split; [exact HL|exact HC].
Qed.

(** The default recipe with one non-speech unit, which begins the utterances: any
    archive of utterances of three frames or more, none of whose features is constant. *)
Theorem C191_aud : forall enum sort amax eps conc nm noise draw ul a wid D scale utts (jobs : nat -> list (list nat)),
  let group := Some "non-speech-unit"%string in
  let conf := aud_phconf nonspeech_topology speech_topology nm noise in
  let lines := map (fun u : string * string => [fst u; snd u]) ul in
  aud_units ul group -> In (a, "non-speech-unit"%string) ul -> (forall b, In (b, "non-speech-unit"%string) ul -> b = a) ->
  (1 <= nm)%nat -> (4 <= wid)%nat -> match conc with Some c => 0 <= c | None => True end ->
  is_enum enum -> (forall counts, sorts_desc counts (sort counts)) -> 0 <= scale ->
  archive_ok D utts -> Forall (fun u => (3 <= length u)%nat) utts -> (forall n, shares (map (utterance "diagonal") utts) (jobs n)) ->
  let train := fun n => train_all enum sort amax eps None conc draw conf lines group wid scale 1 "diagonal" utts (map jobs (seq 0 n)) in
  exists l units em (run : nat -> pwst) (L : R),
    let b := fun s => pw_drawn scale 1 l em (map (utterance "diagonal") utts) s in
    (forall n, train n = Ok (l, units, em, run n)) /\
    (forall n, b (run n) <= b (run (S n)) <= L) /\ Un_cv (fun n => b (run n)) L.
Proof.
  intros enum sort amax eps conc nm noise draw ul a wid D scale utts jobs group conf lines Hu Ha Hun Hnm Hwid Hconc He Hso Hs Har H3 Hj train.
  assert (Hcf := aud_config ul group Hu). fold lines in Hcf.
  destruct (C191_unigram enum sort amax eps None conc draw conf lines ul group wid KDiag D scale 1 "diagonal" utts jobs)
    as (l & units & tots & em & run & Eb & HR & HC); auto.
  { intros g t gc [Hg|[Hg|[]]]; injection Hg as <- <- <-; (split; [|reflexivity]); (split; [cbn; lia|]); (split; [cbn; lra|]); right; left; split; reflexivity. }
  { simpl. tauto. }
  { lra. }
  { intros units tots E. change (topologies conf) with aud_conf in E. destruct (C178_loop aud_conf lines ul group wid Hcf) as (l & units' & tots' & Eb & _).
    assert (Eb' := Eb). unfold build_loop in Eb'. apply bindr_inv in Eb'. destruct Eb' as ([u' t'] & Em & Eb').
    assert (u' = units) by congruence. subst u'.
    assert (units' = units).
    { apply bindr_inv in Eb'. destruct Eb' as (? & _ & Eb'). apply bindr_inv in Eb'. destruct Eb' as (? & _ & Eb').
      apply bindr_inv in Eb'. destruct Eb' as (? & _ & Eb'). apply bindr_inv in Eb'. destruct Eb' as (? & _ & Eb').
      apply bindr_inv in Eb'. destruct Eb' as (? & _ & Eb'). cbn [fst snd] in Eb'. congruence. }
    subst units'. apply Forall_map. destruct Har as (_ & _ & Hf & _). apply Forall_forall. intros u Hin.
    assert (L3 : (3 <= length u)%nat) by exact (proj1 (Forall_forall _ _) H3 u Hin).
    apply (C178_aud_frames ul group wid KDiag D (utterance "diagonal" u) u l units tots'); auto.
    - eapply Forall_impl; [|exact (proj2 (proj1 (Forall_forall _ _) Hf u Hin))]. intros x Hx. split; [exact Hx|exact I].
    - intros ->. simpl in L3. lia. }
  destruct (C178_one_start aud_conf _ ul "non-speech-unit"%string wid a l units tots Hcf) as (i0 & h & _ & _ & Hi); auto.
  { intros g t Ht. now apply (aud_entered g). }
  destruct (HC i0 Hi) as (L & HL & HV). exists l, units, em, run, L. split; [exact HR|]. split; [exact HL|exact HV].
Qed.

(** Training with transcriptions (C186). *)
Theorem C191_monophone : forall enum sort amax eps prior conc draw conf lines ul group wid k D scale lrate cov utts trans ajobs (jobs : nat -> list (list nat)),
  config_ok (topologies conf) lines ul group ->
  (forall g t gc, In (g, (t, gc)) conf -> emconf_ok k gc /\ ec_cov gc = cov) -> (2 * length conf <= wid)%nat ->
  In prior unigram_priors -> match conc with Some c => 0 <= c | None => True end ->
  is_enum enum -> (forall counts, sorts_desc counts (sort counts)) -> 0 <= scale ->
  0 <= lrate <= 1 -> prior = Some "dirichlet"%string \/ lrate = 1 ->
  archive_ok D (map snd utts) -> Forall (fun x => Forall (frame_ok k D) (snd x)) utts ->
  transcripts_ok ul trans -> Permutation (concat ajobs) trans ->
  (forall n, Permutation (concat (jobs n)) (seq 0 (length utts))) ->
  (forall units tots, mkphones (topologies conf) lines = Ok (units, tots) ->
     Forall (fun x : Mo_Model.utt => long_enough group ul units trans (fst x) (length (snd x))) utts) ->
  Forall (fun x : Mo_Model.utt => exists sq, transcribed trans (fst x) sq) utts ->
  let train := fun n => train_alis enum sort amax eps prior conc draw conf lines group wid scale lrate cov utts ajobs (map jobs (seq 0 n)) in
  exists l units tots files em (run : nat -> pwst) (L : R),
    build_loop (topologies conf) lines group wid = Ok (l, units, tots) /\ graphs_of units trans files /\
    let b := fun s => pw_bound scale 1 l em (map (with_ali cov files) utts) s in
    (forall n, train n = Ok (l, units, files, em, run n)) /\
    (forall n, b (run n) <= b (run (S n)) <= L) /\ Un_cv (fun n => b (run n)) L.
Proof.
  intros enum sort amax eps prior conc draw conf lines ul group wid k D scale lrate cov utts trans ajobs jobs H Hgc Hw Hpr Hconc He Hso Hs Hlr Hr
    Har Hfr Htr Hp Hj Hlong Hall train.
  destruct (archive_frames D _ Har) as (Hcn & _). destruct (archive_features D _ Har) as (cs & Ecs & Hf & Ect).
  assert (Hgc' : forall g t gc, In (g, (t, gc)) conf -> emconf_ok k gc) by (intros; eapply Hgc; eauto).
  assert (Ek := config_kind k cov conf lines ul group H Hgc).
  destruct (C178_loop _ _ ul group wid H) as (l0 & units0 & tots0 & Eb0 & _).
  destruct (ali_files _ _ ul group wid l0 units0 tots0 trans ajobs H Eb0 Htr Hp) as (files & Ef & Gf).
  set (xs := map (with_ali cov files) utts) in *.
  assert (Hds : (0 < cs_count cs)%nat) by (rewrite Ect; destruct (concat (map snd utts)); [congruence|simpl; lia]).
  destruct (config_emissions conf lines ul group D (cs_mean cs) (cs_var cs) draw k H Hf Hgc') as (units & tots & ps & Q1 & Q2 & A1 & A2 & A3 & A4 & eg & A5 & A6 & A7).
  destruct (C178_unigram eps prior conc (topologies conf) lines ul group wid H Hpr Hconc) as (l & lo & units' & tots' & w & E1 & E2 & Hl & _ & Ew & Hdir & HT).
  assert (B4 := make_phones _ _ _ _ _ _ _ _ _ _ _ E1). assert (units' = units) by congruence. assert (tots' = tots) by congruence. subst units' tots'.
  assert (Eb := make_built _ _ _ _ _ _ _ _ _ _ _ E1). rewrite Eb in Eb0. injection Eb0 as <- <- <-.
  destruct (HT k D (em_set ps) (em_state ps) A1 A2) as (_ & G & HU).
  assert (Hxs : Forall (spoken k D group ul units) xs).
  { unfold xs. apply Forall_map, Forall_forall. intros x Hx. apply (with_ali_spoken k D group ul units trans); auto.
    - destruct Har as (_ & _ & Hne & _). apply (proj1 (Forall_forall _ _) Hne (snd x)). now apply in_map.
    - exact (proj1 (Forall_forall _ _) Hfr x Hx).
    - exact (proj1 (Forall_forall _ _) (Hlong units tots Q1) x Hx). }
  assert (Hne : xs <> []) by (destruct Har as (_ & Hne & _); unfold xs; destruct utts; [now destruct Hne|discriminate]).
  assert (Ewt : INR (cs_count cs) / INR (loop_frames xs) = 1).
  { unfold xs. rewrite ali_frames, <- Ect. field. apply not_0_INR. lia. }
  assert (Hjx : forall n, shares xs (jobs n)) by (intros n; unfold shares, xs; rewrite map_length; apply Hj).
  destruct (C190_loop enum sort amax k D scale (cs_count cs) l (em_set ps) wid eg lrate xs jobs (pw_init l w (em_state ps)))
    as (run & HR & HC & _); auto.
  { intros Hin. apply A4 in Hin. lia. }
  { eapply Forall_impl; [|exact Hxs]. exact HU. }
  { split; [exact Hlr|]. intros _. unfold pw_init. cbn [pw_weights]. destruct Hr as [Hd| ->]; [|destruct w; auto].
    destruct (Hdir Hd) as (p & q & ->). exact I. }
  rewrite Ewt in HC. destruct HC as (L & HL & HC).
  { unfold xs. apply Forall_map. eapply Forall_impl; [|exact Hall]. intros x (sq & Hx).
    destruct (proj1 Gf _ _ Hx) as (c & _ & Ec). unfold with_ali. cbn [lu_ali]. rewrite Ec. discriminate. }
  exists l, units, tots, files, (em_set ps), (fun n => fst (run n)), L. split; [exact Eb|]. split; [exact Gf|]. split; [|split; [exact HL|exact HC]].
  intros n. unfold train, train_alis. rewrite Ecs. cbn [bindr]. rewrite Q2. cbn [bindr snd fst]. rewrite A5. cbn [bindr]. rewrite E1.
  cbn [bindr fst snd]. rewrite Ef. cbn [bindr]. rewrite Ew. fold xs. rewrite HR. reflexivity.
Qed.

(** The archive and the units of C183, trained for ever. *)
Example C191_ex : forall enum sort amax draw, is_enum enum -> (forall counts, sorts_desc counts (sort counts)) ->
  let jobs := fun n : nat => if Nat.even n then [[1]; [0]]%nat else [[0; 1]]%nat in
  exists l units em (run : nat -> pwst) (L : R),
    let b := fun s => pw_drawn 1 1 l em (map (utterance "diagonal") cx_utts) s in
    (forall n, train_all enum sort amax 1 None None draw (aud_phconf nonspeech_topology speech_topology 2 1)
      (map (fun u : string * string => [fst u; snd u]) ux_units) (Some "non-speech-unit"%string) 4 1 1 "diagonal" cx_utts
      (map jobs (seq 0 n)) = Ok (l, units, em, run n)) /\
    (forall n, b (run n) <= b (run (S n)) <= L) /\ Un_cv (fun n => b (run n)) L.
Proof.
  intros enum sort amax draw He Hso jobs.
  apply (C191_aud enum sort amax 1 None 2 1 draw ux_units "sil"%string 4 1 1 cx_utts jobs ux_aud); auto.
  - now left.
  - intros b [Hb|[Hb|[]]]; [congruence|discriminate Hb].
  - exact Rle_0_1.
  - exact cx_archive.
  - repeat (apply Forall_cons; [apply Nat.leb_le; reflexivity|]). apply Forall_nil.
  - intros n. unfold jobs. destruct (Nat.even n); [apply perm_swap|apply Permutation_refl].
Qed.

Print Assumptions C191_bigram_rounds.
Print Assumptions C191_unigram.
Print Assumptions C191_bigram.
Print Assumptions C191_aud.
Print Assumptions C191_monophone.

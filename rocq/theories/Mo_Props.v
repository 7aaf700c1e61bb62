(** C186: training phones from transcriptions. *)
From Coq Require Import Reals String List Arith Bool Lia Lra Permutation ZArith.
From Verif Require Import Prelude Vec Fe_Model Fe_Spec Fe_Props.
From Verif Require Import MF_Model MF_Proofs Edit_Model Edit_Proofs Dec_Model Dec_Spec Dec_Proofs Opt_Model Opt_Spec Opt_Proofs Opt_Pipe.
From Verif Require Import FB_Model FB_Spec Graph_Model Graph_Spec Gb_Model Gb_Spec Graph_Hist Gb_Proofs Gb_Props Pa_Model Pa_Spec Pa_Proofs Pa_Rank Pa_Props.
From Verif Require Import Lgamma Set_Model Set_Spec Set_Proofs
  HMM_Model HMM_Spec HMM_Proofs Dist_Model Dist_Spec Dist_Proofs Mat NW_Model NW_Spec
  SB_Model SB_Spec Sk_Model Sk_Spec Df_Model Df_Spec Df_Proofs Pl_Model
  FB_Proofs FB_Viterbi Vt_Model Vt_Spec Vt_Proofs Vt_Props Vl_Model Vl_Spec Mx_Model Mx_Spec
  Pw_Model Pw_Spec Pw_Proofs Bg_Model Bg_Spec
  Dt_Model Dt_Spec Dl_Model Dl_Spec Db_Model Rp_Model Rp_Spec Rp_Proofs Rp_Props Em_Model Em_Spec Em_Proofs Em_Props
  De_Model De_Spec De_Proofs De_Props Ch_Model Ch_Spec Ch_Props Na_Model Na_Spec Na_Proofs Na_Props Mo_Model Mo_Spec.
Import ListNotations.
Local Open Scope R_scope.

(** ** The graphs *)
Definition ids (lines : list (list string)) : list string := map (fun l => hd EmptyString l) lines.

Lemma one_line u ps ps' lines : NoDup (ids lines) -> In (u :: ps) lines -> In (u :: ps') lines -> ps = ps'.
Proof.
  induction lines as [|l lines IH]; intros N H1 H2; [destruct H1|]. cbn [ids map] in N. inversion N as [|? ? N1 N2]; subst.
  assert (A : forall q, In (u :: q) lines -> In u (ids lines)) by (intros q Hq; apply in_map_iff; exists (u :: q); auto).
  destruct H1 as [->|H1], H2 as [E|H2].
  - congruence.
  - exfalso. apply N1. cbn [hd]. eauto.
  - subst l. exfalso. apply N1. cbn [hd]. eauto.
  - now apply IH.
Qed.

Lemma ids_app a b : ids (a ++ b) = ids a ++ ids b.
Proof. apply map_app. Qed.

Lemma ali_jobs_spec pg : forall jobs files,
  (forall l, In l (concat jobs) -> exists u ps c, l = u :: ps /\ create_graph_from_seq ps pg = Ok c) -> NoDup (ids (concat jobs)) ->
  exists files', ali_jobs pg jobs files = Ok files' /\
    forall u, (forall ps c, In (u :: ps) (concat jobs) -> ps <> [] -> create_graph_from_seq ps pg = Ok c -> sget u files' = Ok c) /\
      ((forall ps, In (u :: ps) (concat jobs) -> ps = []) -> sget u files' = sget u files).
Proof.
  induction jobs as [|lines jobs IH]; intros files H N.
  - exists files. split; [reflexivity|]. intros u. split; [intros ps c []|auto].
  - cbn [concat] in *. rewrite ids_app in N.
    destruct (mkali_spec pg lines files 0) as (f1 & E1 & S1); [intros l Hl; apply H, in_or_app; now left|].
    destruct (IH f1) as (f2 & E2 & S2); [intros l Hl; apply H, in_or_app; now right|exact (proj1 (proj2 (NoDup_app_inv _ _ N)))|].
    exists f2. split; [cbn [ali_jobs]; rewrite E1; exact E2|]. intros u. split.
    + intros ps c Hin Hne Ec. apply in_app_or in Hin. destruct Hin as [Hin|Hin]; [|now apply (proj1 (S2 u) ps)].
      rewrite (proj2 (S2 u)).
      * destruct (in_split _ _ Hin) as (pre & post & ->). apply (proj1 (S1 u) pre ps post c eq_refl Hne); [|exact Ec].
        intros ps' Hp. exfalso. apply NoDup_app_inv in N. destruct N as (N & _). rewrite ids_app in N. apply NoDup_app_inv in N. destruct N as (_ & N & _). cbn [ids map hd] in N.
        inversion N as [|? ? N1 _]; subst. apply N1. apply in_map_iff. exists (u :: ps'). auto.
      * intros ps' Hp. exfalso. assert (In u (ids lines)) by (apply in_map_iff; exists (u :: ps); auto).
        assert (In u (ids (concat jobs))) by (apply in_map_iff; exists (u :: ps'); auto).
        destruct (NoDup_app_inv _ _ N) as (_ & _ & D). eapply D; eauto.
    + intros Hp. rewrite (proj2 (S2 u)) by (intros; apply Hp, in_or_app; now right).
      apply (proj2 (S1 u)). intros ps Hin. apply Hp, in_or_app. now left.
Qed.

Lemma unit_names conf lines ul group wid l units tots : config_ok conf lines ul group -> build_loop conf lines group wid = Ok (l, units, tots) ->
  NoDup (map fst units) /\ Permutation (map fst units) (map fst ul) /\
  forall n h, In (n, h) units -> usable h /\ all_positive h.
Proof.
  intros H E. destruct (build_ok conf lines ul group wid H) as (l' & units' & tots' & c & g & E' & _ & _ & _ & _ & _ & _ & _ & _ & Nu & Pm & HU & _).
  rewrite E in E'. injection E' as <- <- <-. split; [exact Nu|]. split; [exact Pm|]. intros n h Hn. destruct (HU n h Hn) as (A & B & _). auto.
Qed.

Lemma seq_graph conf lines ul group wid l units tots sq : config_ok conf lines ul group -> build_loop conf lines group wid = Ok (l, units, tots) ->
  Forall (fun n => In n (map fst ul)) sq -> exists c, create_graph_from_seq sq units = Ok c.
Proof.
  intros H E F. destruct (unit_names _ _ _ _ _ _ _ _ H E) as (Nu & Pm & HU).
  assert (X : exists hs, Forall2 (fun p h => sget p units = Ok h) sq hs /\ Forall (fun h => exists n, In (n, h) units) hs).
  { induction F as [|n sq Hn F (hs & A & B)]; [exists []; auto|].
    apply (Permutation_in _ (Permutation_sym Pm)), in_map_iff in Hn. destruct Hn as ([n' h] & En & Hn). cbn [fst] in En. subst n'.
    exists (h :: hs). split; constructor; eauto. now apply Gb_Proofs.sget_nodup. }
  destruct X as (hs & F2 & Fh). destruct (C66_language units sq hs F2) as (g & c & _ & Ec & _).
  - eapply Forall_impl; [|exact Fh]. intros h (n & Hn). now apply (HU n h).
  - intros h a Hh Ha. destruct (proj1 (Forall_forall _ _) Fh h Hh) as (n & Hn). exact (proj2 (HU n h Hn) a Ha).
  - now exists c.
Qed.

(** What the directory holds *)
Definition graphs_of (units : list (string * graph)) (trans : list (list string)) (files : list (string * compiled)) : Prop :=
  (forall u sq, transcribed trans u sq -> exists c, create_graph_from_seq sq units = Ok c /\ sget u files = Ok c) /\
  (forall u, (forall sq, ~ transcribed trans u sq) -> sget u files = Err KeyError).

Lemma ali_files conf lines ul group wid l units tots trans ajobs : config_ok conf lines ul group -> build_loop conf lines group wid = Ok (l, units, tots) ->
  transcripts_ok ul trans -> Permutation (concat ajobs) trans ->
  exists files, ali_jobs units ajobs [] = Ok files /\ graphs_of units trans files.
Proof.
  intros H E (Ht & Hn) Hp.
  assert (Hc : forall x, In x (concat ajobs) -> exists u ps c, x = u :: ps /\ create_graph_from_seq ps units = Ok c).
  { intros x Hx. apply (Permutation_in _ Hp) in Hx. destruct (proj1 (Forall_forall _ _) Ht x Hx) as (u & sq & -> & F).
    destruct (seq_graph _ _ _ _ _ _ _ _ sq H E F) as (c & Ec). eauto. }
  destruct (ali_jobs_spec units ajobs [] Hc) as (files & Ef & S).
  { unfold ids. eapply Permutation_NoDup; [|exact Hn]. apply Permutation_map, Permutation_sym, Hp. }
  exists files. split; [exact Ef|]. split.
  - intros u sq (Hin & Hne). apply (Permutation_in _ (Permutation_sym Hp)) in Hin. destruct (Hc _ Hin) as (u' & ps & c & Eu & Ec).
    injection Eu as <- <-. exists c. split; [exact Ec|]. now apply (proj1 (S u) sq).
  - intros u Hno. rewrite (proj2 (S u)); [reflexivity|]. intros ps Hin. apply (Permutation_in _ Hp) in Hin.
    destruct ps as [|p ps]; [reflexivity|]. exfalso. apply (Hno (p :: ps)). split; [exact Hin|discriminate].
Qed.

Lemma transcribed_dec trans u : (exists sq, transcribed trans u sq) \/ forall sq, ~ transcribed trans u sq.
Proof.
  induction trans as [|l trans IH]; [right; intros sq ([] & _)|].
  destruct IH as [(sq & A & B)|N]; [left; exists sq; split; [now right|exact B]|].
  destruct l as [|v [|p ps]]; [right|right|].
  - intros sq ([A|A] & B); [discriminate|]. now apply (N sq).
  - intros sq ([A|A] & B); [injection A as -> <-; congruence|]. now apply (N sq).
  - destruct (string_dec v u) as [->|Hv]; [left; exists (p :: ps); split; [now left|discriminate]|right].
    intros sq ([A|A] & B); [congruence|]. now apply (N sq).
Qed.

Lemma with_ali_spoken k D group ul units trans files cov (x : Mo_Model.utt) : cov_stats cov = suff k -> graphs_of units trans files ->
  snd x <> [] -> Forall (frame_ok k D) (snd x) -> long_enough group ul units trans (fst x) (length (snd x)) ->
  spoken k D group ul units (with_ali cov files x).
Proof.
  intros Ek (G1 & G2) Hne Hf (L1 & L2). exists (snd x). unfold with_ali. cbn [lu_ali lu_stats]. rewrite Ek.
  split; [reflexivity|]. split; [exact Hf|]. split; [exact Hne|].
  destruct (transcribed_dec trans (fst x)) as [(sq & Ht)|N].
  - destruct (G1 _ _ Ht) as (c & Ec & ->). destruct (L1 _ Ht) as (ls & A & B). exists sq, c, ls. auto.
  - rewrite (G2 _ N). now apply L2.
Qed.

Lemma config_kind k cov conf lines ul group : config_ok (topologies conf) lines ul group ->
  (forall g t gc, In (g, (t, gc)) conf -> emconf_ok k gc /\ ec_cov gc = cov) -> cov_stats cov = suff k.
Proof.
  intros (_ & _ & Hne & _ & _ & Hg & _) Hgc. destruct ul as [|u ul]; [congruence|]. specialize (Hg u (or_introl eq_refl)).
  destruct conf as [|[g [t gc]] conf]; [destruct Hg|]. destruct (Hgc g t gc (or_introl eq_refl)) as ((_ & _ & K) & <-). now apply kind_stats.
Qed.

Lemma ali_frames cov files utts : loop_frames (map (with_ali cov files) utts) = length (concat (map snd utts)).
Proof.
  unfold loop_frames. rewrite map_map. induction utts as [|u utts IH]; [reflexivity|].
  cbn [map list_sum fold_right concat]. rewrite app_length. unfold list_sum in IH. rewrite IH. cbn [with_ali lu_stats]. now rewrite map_length.
Qed.

(** ** The recipe *)
(** Whatever the way the transcriptions are shared out between the mkaligraph jobs
    and the utterances between the accumulate jobs, every command succeeds.  With
    transcriptions for all the utterances the bound of the loop never decreases
    (without any condition on its first unit).  Forced alignment writes the
    transcription of each utterance, along a most likely path of its graph, and
    decoding without transcription works as in C182. *)
Theorem C186_training : forall enum sort amax eps prior conc draw conf lines ul group wid k D scale lrate cov utts trans ajobs jobss,
  config_ok (topologies conf) lines ul group -> (forall g t, In (g, t) (topologies conf) -> entered_once t /\ no_dead_end t) ->
  (forall g t gc, In (g, (t, gc)) conf -> emconf_ok k gc /\ ec_cov gc = cov) -> (2 * length conf <= wid)%nat ->
  In prior unigram_priors -> match conc with Some c => 0 <= c | None => True end ->
  is_enum enum -> (forall counts, sorts_desc counts (sort counts)) -> 0 <= scale ->
  0 <= lrate <= 1 -> prior = Some "dirichlet"%string \/ lrate = 1 ->
  archive_ok D (map snd utts) -> Forall (fun x => Forall (frame_ok k D) (snd x)) utts ->
  transcripts_ok ul trans -> Permutation (concat ajobs) trans ->
  Forall (fun jobs => Permutation (concat jobs) (seq 0 (length utts))) jobss ->
  (forall units tots, mkphones (topologies conf) lines = Ok (units, tots) ->
     Forall (fun x : Mo_Model.utt => long_enough group ul units trans (fst x) (length (snd x))) utts) ->
  let train := train_alis enum sort amax eps prior conc draw conf lines group wid scale lrate cov utts ajobs in
  exists l units tots files em, build_loop (topologies conf) lines group wid = Ok (l, units, tots) /\ graphs_of units trans files /\
    let xs := map (with_ali cov files) utts in
    forall n m, (n <= m <= length jobss)%nat ->
    exists s1 s2, train (firstn n jobss) = Ok (l, units, files, em, s1) /\ train (firstn m jobss) = Ok (l, units, files, em, s2) /\
      (Forall (fun x : Mo_Model.utt => exists sq, transcribed trans (fst x) sq) utts -> pw_bound scale 1 l em xs s1 <= pw_bound scale 1 l em xs s2) /\
      (forall i0, one_initial (pl_graph l) i0 -> pw_drawn scale 1 l em xs s1 <= pw_drawn scale 1 l em xs s2) /\
      (forall amax' scale' x sq c, is_argmax amax' -> In x utts -> transcribed trans (fst x) sq -> create_graph_from_seq sq units = Ok c ->
         exists best lss,
           most_likely (to_cgraph c) (HMM_Spec.frames scale' (map (fun o => nth o (denote (inst (forms (pw_pars s2)) em)) e0) (c_map c))
             (map (suff k) (snd x))) best /\
           reads units sq lss (map (fun s => nth s (c_map c) 0%nat) best) /\
           align_utt amax' scale' false cov (l, units, files, em, s2) x = Ok sq /\
           align_utt amax' scale' true cov (l, units, files, em, s2) x = Ok (per_frame_units sq lss)) /\
      (forall amax' scale' x, is_argmax amax' -> spoken k D group ul units x -> lu_ali x = None ->
         decodes amax' scale' group ul units l (inst (forms (pw_pars s2)) em) (pw_trans s2) x).
Proof.
  intros enum sort amax eps prior conc draw conf lines ul group wid k D scale lrate cov utts trans ajobs jobss H Hent Hgc Hw Hpr Hconc He Hso Hs Hlr Hr
    Har Hfr Htr Hp Hj Hlong train.
  destruct (archive_frames D _ Har) as (Hcn & _). destruct (archive_features D _ Har) as (cs & Ecs & Hf & Ect).
  assert (Hgc' : forall g t gc, In (g, (t, gc)) conf -> emconf_ok k gc) by (intros; eapply Hgc; eauto).
  assert (Ek := config_kind k cov conf lines ul group H Hgc).
  destruct (C178_loop _ _ ul group wid H) as (l0 & units0 & tots0 & Eb0 & _).
  destruct (ali_files _ _ ul group wid l0 units0 tots0 trans ajobs H Eb0 Htr Hp) as (files & Ef & Gf).
  set (xs := map (with_ali cov files) utts) in *.
  assert (Hds : (0 < cs_count cs)%nat) by (rewrite Ect; destruct (concat (map snd utts)); [congruence|simpl; lia]).
  destruct (C179_unigram_training enum sort amax eps prior conc conf lines ul group wid k D (cs_mean cs) (cs_var cs) draw scale (cs_count cs) lrate xs jobss
    H Hf Hgc' Hw Hpr Hconc He Hso Hs Hds Hlr Hr) as (units & tots & ps & eg & l & lo & w & E1 & E2 & E3 & E4 & HT).
  assert (Emk := make_phones _ _ _ _ _ _ _ _ _ _ _ E3).
  assert (Eb := make_built _ _ _ _ _ _ _ _ _ _ _ E3).
  rewrite Eb in Eb0. injection Eb0 as <- <- <-.
  assert (Lg := Hlong units tots Emk).
  assert (Sp : forall x, In x utts -> spoken k D group ul units (with_ali cov files x)).
  { intros x Hx. apply (with_ali_spoken k D group ul units trans); auto.
    - destruct Har as (_ & _ & Hne & _). apply (proj1 (Forall_forall _ _) Hne (snd x)). now apply in_map.
    - exact (proj1 (Forall_forall _ _) Hfr x Hx).
    - exact (proj1 (Forall_forall _ _) Lg x Hx). }
  assert (Hxs : Forall (spoken k D group ul units) xs) by (unfold xs; apply Forall_map, Forall_forall; exact Sp).
  assert (Hne : xs <> []) by (destruct Har as (_ & Hne & _); unfold xs; destruct utts; [now destruct Hne|discriminate]).
  assert (Hjx : Forall (shares xs) jobss).
  { eapply Forall_impl; [|exact Hj]. intros jobs P. unfold shares, xs. rewrite map_length. exact P. }
  specialize (HT Hxs Hne Hjx). cbv zeta in HT.
  assert (Ew : INR (cs_count cs) / INR (loop_frames xs) = 1).
  { unfold xs. rewrite ali_frames, <- Ect. field. apply not_0_INR. lia. }
  rewrite Ew in HT.
  assert (Tr : forall js s v, loop_rounds enum sort amax scale (cs_count cs) l (em_set ps) wid eg lrate true xs js (pw_init l w (em_state ps), None) = Ok (s, v) ->
    train js = Ok (l, units, files, em_set ps, s)).
  { intros js s v E. unfold train, train_alis. rewrite Ecs. cbn [bindr]. rewrite E1. cbn [bindr snd fst]. rewrite E2. cbn [bindr]. rewrite E3.
    cbn [bindr fst snd]. rewrite Ef. cbn [bindr]. rewrite E4. fold xs. rewrite E. reflexivity. }
  exists l, units, tots, files, (em_set ps). split; [exact Eb|]. split; [exact Gf|]. intros xs' n m Hnm.
  destruct (HT n m Hnm) as (s1 & s2 & v1 & v2 & R1 & R2 & G & B1 & B2).
  exists s1, s2. split; [now apply (Tr _ _ v1)|]. split; [now apply (Tr _ _ v2)|]. split; [|split; [exact B2|]].
  { intros Ft. apply B1. unfold xs. apply Forall_map. eapply Forall_impl; [|exact Ft]. intros x (sq & Hx).
    destruct (proj1 Gf _ _ Hx) as (c & _ & Ec). unfold with_ali. cbn [lu_ali]. rewrite Ec. discriminate. }
  destruct (config_emissions conf lines ul group D (cs_mean cs) (cs_var cs) draw k H Hf Hgc') as (u' & t' & p' & Q1 & Q2 & Q3 & _).
  rewrite E1 in Q2. injection Q2 as <- <- <-.
  destruct G as (G1 & _ & (_ & G3)).
  destruct (ends_leave _ _ _ _ _ _ _ _ H Eb) as (Hl & Hlt). split.
  - intros amax' scale' x sq c Ha Hx Ht Ec. destruct (Sp x Hx) as (ys & Y1 & Y2 & Y3 & _).
    destruct (proj1 Gf _ _ Ht) as (c' & Ec' & Es). rewrite Ec in Ec'. injection Ec' as <-.
    destruct (proj1 (proj1 (Forall_forall _ _) Lg x Hx) sq Ht) as (ls & Sa & Ls).
    assert (Est : lu_stats (with_ali cov files x) = map (suff k) (snd x)) by (unfold with_ali; cbn [lu_stats]; now rewrite Ek).
    destruct (C182_alignment amax' scale' (topologies conf) lines ul group wid l units tots k D (em_set ps) (pw_pars s2) (pw_trans s2) (with_ali cov files x)
      (snd x) sq c ls Ha H Hent Eb) as (best & lss & M1 & M2 & M3 & M4 & M5); auto.
    + exact (proj1 (Forall_forall _ _) Hfr x Hx).
    + intros En. rewrite En in Est. rewrite Est in Y1. destruct ys; [congruence|discriminate].
    + unfold with_ali. cbn [lu_ali]. now rewrite Es.
    + exists best, lss. rewrite Est in M1. auto.
  - intros amax' scale' x Ha Hx Hali.
    apply (C182_loop amax' scale' (topologies conf) lines ul group wid l units tots k D); auto.
    apply (good_trans l _ (fun _ q => elog_weight (pw_weights s2) q)); auto.
    + apply loop_rounds_else in R2. cbn [fst] in R2. intros i j Hij. rewrite R2 by exact Hij. now apply unigram_other.
    + intros i q Hi Hq. cbv zeta. apply G3; [now apply nth_In|exact Hq].
Qed.

(** ** Utterances too short for their transcription *)
(** The graph of a transcription has paths of T states exactly when T frames can
    be cut into parts that the units accept. *)
Lemma ali_possible conf lines ul group wid l units tots sq c tr x :
  config_ok conf lines ul group -> build_loop conf lines group wid = Ok (l, units, tots) ->
  Forall (fun n => In n (map fst ul)) sq -> create_graph_from_seq sq units = Ok c -> lu_ali x = Some (to_cgraph c, c_map c) -> lu_stats x <> [] ->
  (possible (lu_utt l tr x) <-> exists ls, said units sq ls /\ length ls = length (lu_stats x)) /\ 
  ((exists ls, said units sq ls /\ ls <> []) -> (0 < c_n c)%nat) /\ length (c_map c) = c_n c /\ forall o, In o (c_map c) -> (o < list_sum tots)%nat.
Proof.
  intros Hcfg Eb Fn Ecs Eali Hne.
  destruct (build_ok conf lines ul group wid Hcfg) as (l' & units' & tots' & c1 & g & E' & _ & Eg & Eo & Ec & En & Em & Hl & Ln & Nu & Pm & HU & _).
  rewrite Eb in E'. injection E' as <- <- <-.
  assert (X : exists hs, Forall2 (fun n h => In (n, h) units) sq hs).
  { clear - Fn Pm. induction Fn as [|n sq Hn _ (hs & IH)]; [exists []; constructor|].
    apply (Permutation_in _ (Permutation_sym Pm)), in_map_iff in Hn. destruct Hn as ([n' h] & E & Hn). cbn [fst] in E. subst n'.
    exists (h :: hs). now constructor. }
  destruct X as (hs & Hsq).
  assert (F2 : Forall2 (fun p h => sget p units = Ok h) sq hs).
  { clear - Hsq Nu. induction Hsq; constructor; auto. now apply sget_units. }
  assert (Fh : Forall (fun h => exists n, In (n, h) units) hs).
  { clear - Hsq. induction Hsq; constructor; eauto. }
  assert (Fu : Forall usable hs).
  { eapply Forall_impl; [|exact Fh]. intros h (n & Hn). now apply (HU n h). }
  assert (Fp : Forall all_positive hs).
  { eapply Forall_impl; [|exact Fh]. intros h (n & Hn). now apply (HU n h). }
  assert (Fr : Forall (fun h => ranked h /\ exits h) hs).
  { eapply Forall_impl; [|exact Fh]. intros h (n & Hn). destruct (HU n h Hn) as (_ & _ & A & B & _). auto. }
  destruct (ali_full units sq hs F2 Fu Fp) as (g1 & A1 & W1 & P1 & N1 & (s1 & e1 & Q1 & Q2 & Q3 & Q4) & R1).
  destruct (R1 Fr) as (R2 & X2).
  destruct (C66_language units sq hs) as (g2 & c2 & D1 & D2 & D3 & D4 & D5); auto.
  { intros h a Hh Ha'. exact (proj1 (Forall_forall _ _) Fp h Hh a Ha'). }
  assert (g2 = g1) by congruence. subst g2. assert (c2 = c) by congruence. subst c2.
  assert (Hd : forall i, (i < c_n c)%nat -> Graph_Model.c_trans c i i < 1) by (intros i Hi; now apply (diag_lt_one g1)).
  split.
  - unfold possible, lu_utt. rewrite Eali. cbn [u_graph u_stats]. set (T := length (lu_stats x)). split.
    + intros (p & Hp & Hpos). exists (map (fun s => nth s (c_map c) 0%nat) p).
      assert (Lp : length p = T) by (apply in_paths in Hp; apply Hp). rewrite map_length. split; [|exact Lp].
      exists hs. split; [exact Hsq|]. apply D4. apply (C155_exact g1 c s1 e1); auto.
      * intros E. apply (f_equal (@length nat)) in E. rewrite map_length, Lp in E. unfold T in E. destruct (lu_stats x); [congruence|discriminate].
      * set (rows := repeat (fun _ : nat => Fin 0) T : list row).
        apply (score_accepts (to_cgraph c) (c_map c) rows); [unfold rows; now rewrite repeat_length|].
        apply fin_ex. unfold rows. unfold prior_prob in Hpos. now rewrite <- ex_path_score in Hpos.
    + intros (ls & (hs' & Hsq' & Hac) & Hlen).
      assert (hs' = hs).
      { assert (F2' : Forall2 (fun p h => sget p units = Ok h) sq hs') by (clear - Hsq' Nu; induction Hsq'; constructor; auto; now apply sget_units).
        clear - F2 F2'. revert hs' F2'. induction F2; intros hs' F'; inversion F'; subst; [reflexivity|]. f_equal; [congruence|auto]. }
      subst hs'. assert (Hls : ls <> []) by (intros ->; unfold T in Hlen; destruct (lu_stats x); [congruence|discriminate]).
      destruct (graph_path g1 c s1 e1 ls W1 P1 Q1 Q2 Q3 Q4 D3 Hd Hls (proj2 (D4 ls) Hac)) as (p & Hp & Hsc).
      rewrite Hlen in Hp, Hsc. exists p. split; [exact Hp|]. now apply score_prior.
  - split; [|split].
    + intros (ls & (hs' & Hsq' & Hac) & Hls).
      assert (hs' = hs).
      { assert (F2' : Forall2 (fun p h => sget p units = Ok h) sq hs') by (clear - Hsq' Nu; induction Hsq'; constructor; auto; now apply sget_units).
        clear - F2 F2'. revert hs' F2'. induction F2; intros hs' F'; inversion F'; subst; [reflexivity|]. f_equal; [congruence|auto]. }
      subst hs'. destruct (graph_path g1 c s1 e1 ls W1 P1 Q1 Q2 Q3 Q4 D3 Hd Hls (proj2 (D4 ls) Hac)) as (p & Hp & _).
      apply in_paths in Hp. destruct Hp as (Lp & Fp'). destruct p as [|a p]; [destruct ls; [congruence|discriminate]|].
      inversion Fp'; subst. lia.
    + destruct (compile_map g1 c D3) as [M1 M2]. rewrite M1. unfold pdf_id_mapping. rewrite map_length. now symmetry.
    + rewrite D5. intros o Ho. apply in_concat in Ho. destruct Ho as (m & Hm & Ho). apply in_map_iff in Hm.
      destruct Hm as (h & <- & Hh). destruct (proj1 (Forall_forall _ _) Fh h Hh) as (n & Hn). now apply (HU n h Hn).
Qed.

Lemma nan_frames amax scale l m d wid w tr x : fits d m (lu_utt l tr x) -> (0 < cg_n (u_graph (lu_utt l tr x)))%nat -> impossible (lu_utt l tr x) ->
  exists b, nloop_batch amax scale l m wid w tr x = Ok b /\ nb_llh b = nans (length (lu_stats x)).
Proof.
  intros Hf Hn Himp. destruct (parts amax scale l m d tr x Hf) as (llhs & posts & lnm & c & E1 & L1 & E2 & L2 & E3 & Ec).
  destruct Hf as (F1 & F2 & F3 & F4).
  eexists. unfold nloop_batch. rewrite E1, E3. cbn [bindr fst snd]. split; [reflexivity|]. cbn [nb_llh].
  rewrite (nresps_nan (u_graph (lu_utt l tr x)) (u_order (lu_utt l tr x)) F4 llhs posts lnm c); [|exact E2|congruence|now rewrite Ec|rewrite L1; exact Himp].
  assert (Ly : Forall (fun y => length y = cg_n (u_graph (lu_utt l tr x))) llhs).
  { rewrite pc_llhs_ok in E1 by auto. injection E1 as <-. apply Forall_map. apply Forall_forall. intros y _. unfold vscale. now rewrite !map_length. }
  assert (Es : u_stats (lu_utt l tr x) = lu_stats x) by (unfold lu_utt; destruct (lu_ali x) as [(g, o)|]; reflexivity). rewrite <- Es, <- L1.
  clear - Ly Hn. induction llhs as [|y llhs IH]; [reflexivity|]. cbn [map map2 length]. unfold nans. cbn [repeat].
  inversion Ly; subst. f_equal; [now apply nframe_nans|]. now apply IH.
Qed.

(** An utterance with fewer frames than its transcription needs: none of the paths
    of its graph has a positive probability, and the value that update prints for
    the round is NaN, whatever the other utterances. *)
Theorem C186_short : forall conf lines ul group wid l units tots k D sq ls0 c x xs tr,
  config_ok conf lines ul group -> build_loop conf lines group wid = Ok (l, units, tots) ->
  Forall (fun n => In n (map fst ul)) sq -> said units sq ls0 -> ls0 <> [] ->
  create_graph_from_seq sq units = Ok c -> lu_ali x = Some (to_cgraph c, c_map c) -> lu_stats x = map (suff k) xs -> Forall (frame_ok k D) xs -> xs <> [] ->
  (impossible (lu_utt l tr x) <-> ~ exists ls, said units sq ls /\ length ls = length xs) /\
  (~ (exists ls, said units sq ls /\ length ls = length xs) ->
   forall amax scale m w bs xs', (list_sum tots <= size m)%nat -> In x xs' -> mapM (nloop_batch amax scale l m wid w tr) xs' = Ok bs ->
     forall ds kl, nmessage ds kl bs = None).
Proof.
  intros conf lines ul group wid l units tots k D sq ls0 c x xs tr Hc Eb Fn Hs0 Hl0 Ec Ea Ex Fx Hne.
  assert (Hnx : lu_stats x <> []) by (rewrite Ex; destruct xs; [congruence|discriminate]).
  assert (Lx : length (lu_stats x) = length xs) by (rewrite Ex; apply map_length).
  destruct (ali_possible _ _ ul group wid l units tots sq c tr x Hc Eb Fn Ec Ea Hnx) as (P & Pn & Pl & Po).
  assert (I : impossible (lu_utt l tr x) <-> ~ exists ls, said units sq ls /\ length ls = length xs) by (rewrite imp_not, P, Lx; tauto).
  split; [exact I|]. intros N amax scale m w bs xs' Hsz Hin Em ds kl. apply I in N.
  destruct (nan_frames amax scale l m (suff_dim k D) wid w tr x) as (b & Eb' & Enan); auto.
  - unfold fits, lu_utt. rewrite Ea. cbn [u_stats u_order u_graph to_cgraph cg_n].
    split; [exact Hnx|]. split; [|split; [intros o Ho; specialize (Po o Ho); lia|exact Pl]].
    rewrite Ex. apply Forall_map. eapply Forall_impl; [|exact Fx]. intros y Hy. now apply suff_length.
  - unfold lu_utt. rewrite Ea. cbn [u_graph to_cgraph cg_n]. eauto.
  - apply nmessage_nan. exists b. split; [|rewrite Enan; destruct (lu_stats x); [congruence|now left]].
    clear - Em Hin Eb'. revert bs Em. induction xs' as [|y xs' IH]; intros bs Em; [destruct Hin|]. cbn [mapM] in Em.
    apply bindr_inv in Em. destruct Em as (b1 & E1 & Em). apply bindr_inv in Em. destruct Em as (bs1 & E2 & Em). injection Em as <-.
    destruct Hin as [->|Hin]; [left; congruence|right; now apply IH].
Qed.

(** ** The topologies of the recipe *)
(** A transcription of n units can be said in T frames if and only if T >= 3n. *)
Theorem C186_frames : forall ul group wid l units tots sq T, aud_units ul group ->
  build_loop aud_conf (map (fun u => [fst u; snd u]) ul) group wid = Ok (l, units, tots) ->
  Forall (fun n => In n (map fst ul)) sq -> sq <> [] ->
  ((exists ls, said units sq ls /\ length ls = T) <-> (3 * length sq <= T)%nat).
Proof.
  intros ul group wid l units tots sq T Hu E Fn Hne.
  assert (Hfr := fun n h H => aud_unit ul group wid l units tots n h Hu E H). split.
  - intros (ls & (hs & F1 & lss & F2 & ->) & <-). clear Hne Fn. revert lss F2. induction F1 as [|n h sq hs Hh F1 IH]; intros lss F2.
    + cbn. lia.
    + inversion F2 as [|? l1 ? lss1 H1 H2]; subst. cbn [concat length]. rewrite app_length. specialize (IH _ H2).
      assert (3 <= length l1)%nat by (apply (Hfr n h Hh); eauto). lia.
  - assert (Hin : forall n, In n (map fst ul) -> exists h, In (n, h) units).
    { intros n Hn. destruct (unit_names _ _ ul group wid l units tots (aud_config ul group Hu) E) as (_ & Pm & _).
      apply (Permutation_in _ (Permutation_sym Pm)), in_map_iff in Hn. destruct Hn as ([n' h] & En & Hn). cbn [fst] in En. subst n'. eauto. }
    revert T Hne. induction Fn as [|n sq Hn Fn IH]; intros T Hne HT; [congruence|]. destruct (Hin n Hn) as (h & Hh).
    destruct sq as [|n' sq].
    + destruct (proj2 (Hfr n h Hh T) ltac:(cbn in HT; lia)) as (l1 & A & B). exists l1. split; [|exact B].
      exists [h]. split; [repeat constructor; exact Hh|]. exists [l1]. split; [repeat constructor; exact A|]. cbn. now rewrite app_nil_r.
    + destruct (IH (T - 3)%nat) as (ls & (hs & F1 & lss & F2 & ->) & Hls); [discriminate|cbn [length] in *; lia|].
      destruct (proj2 (Hfr n h Hh 3%nat) (le_n 3)) as (l1 & A & B). exists (l1 ++ concat lss). split.
      * exists (h :: hs). split; [now constructor|]. exists (l1 :: lss). split; [now constructor|reflexivity].
      * rewrite app_length, Hls, B. cbn [length] in HT. lia.
Qed.

(** Each unit over some frames *)
Definition spread (sq : list string) (durs : list nat) : list string :=
  concat (map (fun x : string * nat => repeat (fst x) (snd x)) (combine sq durs)).

Lemma spread_units sq : forall lss, per_frame_units sq lss = spread sq (map (@length nat) lss).
Proof.
  unfold per_frame_units, spread. induction sq as [|n sq IH]; intros [|l lss]; auto. cbn [combine map concat fst snd]. f_equal. apply IH.
Qed.

(** monophone.sh and align.sh with the topologies of the recipe: any archive none
    of whose features is constant, any transcriptions of its utterances with at
    least three frames for each unit.  Forced alignment gives every frame a unit:
    those of the transcription in order, with three frames or more each. *)
Theorem C186_recipe : forall enum sort amax eps conc nm noise draw ul group wid D scale utts trans ajobs jobss,
  let conf := aud_phconf nonspeech_topology speech_topology nm noise in
  let lines := map (fun u : string * string => [fst u; snd u]) ul in
  aud_units ul group -> (1 <= nm)%nat -> (4 <= wid)%nat -> match conc with Some c => 0 <= c | None => True end ->
  is_enum enum -> (forall counts, sorts_desc counts (sort counts)) -> 0 <= scale ->
  archive_ok D (map snd utts) -> transcripts_ok ul trans -> Permutation (concat ajobs) trans ->
  Forall (fun jobs => Permutation (concat jobs) (seq 0 (length utts))) jobss ->
  Forall (fun x : Mo_Model.utt => (3 <= length (snd x))%nat /\ forall sq, transcribed trans (fst x) sq -> (3 * length sq <= length (snd x))%nat) utts ->
  let train := train_alis enum sort amax eps None conc draw conf lines group wid scale 1 "diagonal" utts ajobs in
  exists l units files em,
    let xs := map (with_ali "diagonal" files) utts in
    forall n m, (n <= m <= length jobss)%nat ->
    exists s1 s2, train (firstn n jobss) = Ok (l, units, files, em, s1) /\ train (firstn m jobss) = Ok (l, units, files, em, s2) /\
      (Forall (fun x : Mo_Model.utt => exists sq, transcribed trans (fst x) sq) utts -> pw_bound scale 1 l em xs s1 <= pw_bound scale 1 l em xs s2) /\
      forall amax' scale' x sq, is_argmax amax' -> In x utts -> transcribed trans (fst x) sq ->
        exists durs, length durs = length sq /\ Forall (fun d => (3 <= d)%nat) durs /\ list_sum durs = length (snd x) /\
          align_utt amax' scale' false "diagonal" (l, units, files, em, s2) x = Ok sq /\
          align_utt amax' scale' true "diagonal" (l, units, files, em, s2) x = Ok (spread sq durs).
Proof.
  intros enum sort amax eps conc nm noise draw ul group wid D scale utts trans ajobs jobss conf lines Hu Hnm Hwid Hconc He Hso Hs Har Htr Hp Hj H3 train.
  assert (Hcf := aud_config ul group Hu). fold lines in Hcf.
  assert (Hd : Forall (fun x => Forall (frame_ok KDiag D) (snd x)) utts).
  { destruct Har as (_ & _ & Hf & _). apply Forall_forall. intros x Hx.
    destruct (proj1 (Forall_forall _ _) Hf (snd x) (in_map _ _ _ Hx)) as (_ & Hc). eapply Forall_impl; [|exact Hc]. intros y Hy. split; [exact Hy|exact I]. }
  assert (Hsq : forall u sq, transcribed trans u sq -> Forall (fun n => In n (map fst ul)) sq).
  { intros u sq (Hin & _). destruct Htr as (Ft & _). destruct (proj1 (Forall_forall _ _) Ft _ Hin) as (u' & sq' & E & F). congruence. }
  destruct (C186_training enum sort amax eps None conc draw conf lines ul group wid KDiag D scale 1 "diagonal" utts trans ajobs jobss)
    as (l & units & tots & files & em & Eb & Gf & HT); auto.
  { exact aud_entered. }
  { intros g t gc [Hg|[Hg|[]]]; injection Hg as <- <- <-; (split; [|reflexivity]); (split; [cbn; lia|]); (split; [cbn; lra|]); right; left; split; reflexivity. }
  { simpl. tauto. }
  { lra. }
  { intros units tots E. change (topologies conf) with aud_conf in E. destruct (C178_loop aud_conf lines ul group wid Hcf) as (l & units' & tots' & Eb & _).
    assert (Eb' := Eb). unfold build_loop in Eb'. apply bindr_inv in Eb'. destruct Eb' as ([u' t'] & Em & Eb').
    assert (u' = units) by congruence. subst u'.
    assert (units' = units).
    { apply bindr_inv in Eb'. destruct Eb' as (? & _ & Eb'). apply bindr_inv in Eb'. destruct Eb' as (? & _ & Eb').
      apply bindr_inv in Eb'. destruct Eb' as (? & _ & Eb'). apply bindr_inv in Eb'. destruct Eb' as (? & _ & Eb').
      apply bindr_inv in Eb'. destruct Eb' as (? & _ & Eb'). cbn [fst snd] in Eb'. congruence. }
    subst units'. eapply Forall_impl; [|exact H3]. intros x (L3 & Lt). split.
    - intros sq Ht. apply (C186_frames ul group wid l units tots'); auto; [now apply (Hsq (fst x))|apply Ht].
    - intros _. apply (aud_says ul group wid l units tots' Hu Eb); lia. }
  exists l, units, files, em. intros xs n m Hm. destruct (HT n m Hm) as (s1 & s2 & A1 & A2 & A3 & _ & A4 & _).
  exists s1, s2. split; [exact A1|]. split; [exact A2|]. split; [exact A3|].
  intros amax' scale' x sq Ha Hx Ht. destruct (proj1 Gf _ _ Ht) as (c & Ec & _).
  destruct (A4 amax' scale' x sq c Ha Hx Ht Ec) as (best & lss & M & Rd & B1 & B2).
  destruct Rd as (hs & R1 & R2 & R3). exists (map (@length nat) lss). rewrite <- spread_units.
  assert (Lb : length best = length (snd x)).
  { destruct M as (M & _). apply in_paths in M. destruct M as (M & _). unfold HMM_Spec.frames in M. now rewrite !map_length in M. }
  split; [|split; [|split; [|auto]]].
  - rewrite map_length. rewrite <- (F2_len _ _ _ R2). symmetry. exact (F2_len _ _ _ R1).
  - apply Forall_map. clear - R1 R2 Hu Eb. revert lss R2. induction R1 as [|n h sq hs Hh R1 IH]; intros lss R2; inversion R2; subst; constructor; auto.
    apply (aud_unit ul group wid l units tots n h Hu Eb Hh). eauto.
  - rewrite <- Lb, <- (map_length (fun s => nth s (c_map c) 0%nat) best), R3. clear. induction lss as [|a lss IH]; [reflexivity|].
    cbn [map list_sum fold_right concat]. rewrite app_length. unfold list_sum in IH. now rewrite IH.
Qed.

(** Silence and one unit; the second utterance has the frames of one unit only. *)
Definition mx_utts : list Mo_Model.utt := [("a", [[1]; [1]; [4]; [4]; [7]; [2]; [3]]); ("b", [[0]; [3]; [5]])]%string.
Definition mx_trans : list (list string) := [["a"; "sil"; "au1"]; ["b"; "au1"]]%string.

Example C186_ex : forall enum sort amax draw, is_enum enum -> (forall counts, sorts_desc counts (sort counts)) -> is_argmax amax ->
  exists t, train_alis enum sort amax 1 None None draw (aud_phconf nonspeech_topology speech_topology 2 1)
      (map (fun u : string * string => [fst u; snd u]) ux_units) (Some "non-speech-unit"%string) 4 1 1 "diagonal" mx_utts
      [[["b"; "au1"]]; [["a"; "sil"; "au1"]]]%string [[[1]; [0]]]%nat = Ok t /\
    align_utt amax 1 false "diagonal" t ("a", [[1]; [1]; [4]; [4]; [7]; [2]; [3]])%string = Ok ["sil"; "au1"]%string /\
    align_utt amax 1 true "diagonal" t ("b", [[0]; [3]; [5]])%string = Ok ["au1"; "au1"; "au1"]%string /\
    (exists k, (k = 3%nat \/ k = 4%nat) /\
      align_utt amax 1 true "diagonal" t ("a", [[1]; [1]; [4]; [4]; [7]; [2]; [3]])%string = Ok (repeat "sil"%string k ++ repeat "au1"%string (7 - k))).
Proof.
  intros enum sort amax draw He Hso Ha.
  assert (Tb : transcribed mx_trans "b"%string ["au1"]%string) by (split; [right; now left|discriminate]).
  assert (Ta : transcribed mx_trans "a"%string ["sil"; "au1"]%string) by (split; [now left|discriminate]).
  destruct (C186_recipe enum sort amax 1 None 2 1 draw ux_units (Some "non-speech-unit"%string) 4 1 1 mx_utts mx_trans
    [[["b"; "au1"]]; [["a"; "sil"; "au1"]]]%string [[[1]; [0]]]%nat ux_aud ltac:(lia) (le_n 4) I He Hso Rle_0_1) as (l & units & files & em & HT).
  { split; [lia|]. split; [discriminate|]. split.
    - repeat (apply Forall_cons; [split; [discriminate|repeat constructor]|]). apply Forall_nil.
    - intros c Hc. assert (c = 0%nat) by lia. subst c. exists [1], [4]. split; [now left|]. split; [right; right; now left|]. cbn [nth]. lra. }
  { split.
    - constructor; [|constructor; [|constructor]].
      + exists "a"%string, ["sil"; "au1"]%string. split; [reflexivity|]. constructor; [now left|]. constructor; [right; now left|constructor].
      + exists "b"%string, ["au1"]%string. split; [reflexivity|]. constructor; [right; now left|constructor].
    - cbn. constructor; [intros [H|[]]; discriminate|]. constructor; [intros []|constructor]. }
  { apply perm_swap. }
  { constructor; [apply perm_swap|constructor]. }
  { constructor; [|constructor; [|constructor]]; (split; [cbn; lia|]); intros sq ([H|[H|[]]] & _); injection H as ?; subst; cbn; try lia; discriminate. }
  destruct (HT 1%nat 1%nat (conj (le_n 1) (le_n 1))) as (_ & s & _ & A & _ & B). cbn [firstn] in A. clear HT.
  exists (l, units, files, em, s). split; [exact A|]. clear A.
  destruct (B amax 1 ("a", [[1]; [1]; [4]; [4]; [7]; [2]; [3]])%string _ Ha (or_introl eq_refl) Ta) as (d1 & L1 & F1 & S1 & X1 & X2).
  destruct (B amax 1 ("b", [[0]; [3]; [5]])%string _ Ha (or_intror (or_introl eq_refl)) Tb) as (d2 & L2 & F2 & S2 & Y1 & Y2).
  split; [exact X1|]. split.
  - rewrite Y2. destruct d2 as [|d [|? ?]]; try discriminate. cbn in S2. assert (d = 3%nat) by lia. subst d. reflexivity.
  - rewrite X2. destruct d1 as [|d [|d' [|? ?]]]; try discriminate. cbn in S1. inversion F1 as [|? ? G1 F1']; subst. inversion F1' as [|? ? G2 _]; subst.
    exists d. assert (d' = 7 - d)%nat by lia. subst d'. assert (Hd : (d = 3 \/ d = 4)%nat) by lia. split; [exact Hd|]. destruct Hd as [->| ->]; reflexivity.
Qed.

Print Assumptions C186_training.
Print Assumptions C186_short.
Print Assumptions C186_frames.
Print Assumptions C186_recipe.

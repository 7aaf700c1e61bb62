(** C178: from the configuration of the units to the trained phone-loop. *)
From Coq Require Import Reals String List Arith Bool Lia Lra Permutation ZArith.
From Verif Require Import Prelude Vec Edit_Model Edit_Proofs Dec_Model Dec_Proofs Opt_Model Opt_Spec Opt_Proofs Opt_Pipe.
From Verif Require Import FB_Model FB_Spec FB_Proofs FB_Viterbi Graph_Model Graph_Spec Graph_Proofs Graph_Eps Graph_Hist
  Graph_Lang Graph_Props Gb_Model Gb_Spec Gb_Lang Gb_Proofs Gb_Loop Gb_Props Cl_Props Pa_Model Pa_Spec Pa_Proofs Pa_Rank Pa_Props.
From Verif Require Import Gibbs Lgamma Set_Model Set_Spec Set_Proofs
  HMM_Model HMM_Spec HMM_Proofs HMM_Props Dist_Model Dist_Spec Dist_Proofs Mat NW_Model NW_Spec
  SB_Model SB_Spec Sk_Model Sk_Spec Df_Model Pl_Model
  Vt_Model Vt_Spec Vt_Proofs Vt_Props Vl_Model Vl_Spec Vl_Proofs Vl_Props Mx_Model Mx_Spec Mx_Proofs Mx_Props
  Pw_Model Pw_Spec Pw_Proofs Pw_Props Bg_Model Bg_Spec Bg_Proofs Bg_Props
  Dt_Model Dt_Spec Dt_Proofs Dt_Props Dl_Model Dl_Spec Dl_Proofs Dl_Props Db_Model Db_Proofs Db_Props Rp_Graph Rp_Model Rp_Spec Rp_Proofs Rp_Start.
Import ListNotations.
Local Open Scope R_scope.

(** ** What the commands return *)
Lemma bindr_inv {A B} (m : result A) (f : A -> result B) y : bindr m f = Ok y -> exists x, m = Ok x /\ f x = Ok y.
Proof. destruct m as [x|]; [|discriminate]. intros H. exists x. auto. Qed.

Lemma pdf_values_inv d ps : pdf_values d = Ok ps -> Forall2 (fun (x : string * option nat) p => snd x = Some p) d ps.
Proof.
  revert ps. induction d as [|x d IH]; intros ps H; cbn in H.
  - injection H as <-. constructor.
  - destruct (snd x) as [p|] eqn:Ex; [|discriminate]. cbn [bindr] in H. fold (pdf_values d) in H.
    apply bindr_inv in H. destruct H as (qs & Hq & H). injection H as <-. constructor; auto.
Qed.

Lemma Forall2_trans {A B C} (P : A -> B -> Prop) (Q : B -> C -> Prop) (U : A -> C -> Prop) la lb lc :
  (forall a b c, P a b -> Q b c -> U a c) -> Forall2 P la lb -> Forall2 Q lb lc -> Forall2 U la lc.
Proof.
  intros H F. revert lc. induction F; intros lc G; inversion G; subst; constructor; eauto.
Qed.

Lemma build_units conf lines ul group wid l units tots : config_ok conf lines ul group ->
  build_loop conf lines group wid = Ok (l, units, tots) ->
  Forall2 (fun u p => begins (snd u) p) units (pl_starts l) /\ Forall2 (fun u p => finishes (snd u) p) units (pl_ends l) /\
  (forall n h, In (n, h) units -> exists gr t k m, In (n, gr) ul /\ In (gr, t) conf /\ (2 <= m)%nat /\ contiguous t m /\ h = unit_of t k m) /\
  concat (map (fun u => pdf_id_mapping (snd u)) units) = seq 0 (list_sum tots).
Proof.
  intros (Hconf & El & Hne & Hpop & Hnd & Hg & Hsp & Hgr) E.
  assert (Hul : mapM unit_line lines = Ok ul) by (rewrite El; apply unit_lines).
  destruct (C65_success conf lines ul group) as (units' & tots' & pl & sym & g & sp & ep & c & A1 & A2 & A3 & A4 & A5 & A6 & A7 & A8); auto.
  { intros gr t Ht. destruct (Hconf gr t Ht) as (Hp & n & e & x & Hc & _ & Hen & Hex & _). split; [exact Hp|].
    exists n, e, x. split; [|auto]. destruct Hen. lia. }
  unfold build_loop in E. rewrite A1 in E. cbn [bindr fst snd] in E. rewrite A2 in E. cbn [bindr fst snd] in E.
  rewrite A3 in E. cbn [bindr fst snd] in E. rewrite A4 in E. cbn [bindr] in E.
  apply bindr_inv in E. destruct E as (starts & Es & E). apply bindr_inv in E. destruct E as (ends & Ee & E).
  assert (units' = units) by congruence. subst units'. assert (tots' = tots) by congruence. subst tots'.
  assert (Ls : pl_starts l = starts) by (injection E as <-; reflexivity).
  assert (Le : pl_ends l = ends) by (injection E as <-; reflexivity).
  apply pdf_values_inv in Es. apply pdf_values_inv in Ee. rewrite Ls, Le. split; [|split].
  - eapply Forall2_trans; [|exact A7|exact Es]. intros u s p (_ & b & e & q & B1 & B2 & B3 & B4) B5.
    assert (q = p) by congruence. subst q. exists b, e. auto.
  - eapply Forall2_trans; [|exact A8|exact Ee]. intros u s p (_ & b & e & q & B1 & B2 & B3 & B4) B5.
    assert (q = p) by congruence. subst q. exists b, e. auto.
  - assert (Hreg : forall gr t, In (gr, t) conf -> regular t).
    { intros gr t Ht. destruct (Hconf gr t Ht) as (_ & n & e & x & Hc & _ & (He & _) & _). exists n. split; [lia|exact Hc]. }
    destruct (mkphones_inv conf lines ul units tots Hreg Hul Hnd Hg A1) as (_ & M & _ & F). split.
    2:{ exact M. }
    intros n h Hin. destruct (proj1 (Forall_forall _ _) F (n, h) Hin) as (gr & t & k & m & B1 & B2 & B3 & B4 & B5).
    exists gr, t, k, m. auto.
Qed.

(** The four commands succeed on every configuration of left-to-right units.
    The loop has one state per emission, its paths are the sequences of
    emissions of the sequences of units, and nothing else; its start and end
    states are the first and last states of the units. *)
Theorem C178_loop : forall conf lines ul group wid, config_ok conf lines ul group ->
  exists l units tots, build_loop conf lines group wid = Ok (l, units, tots) /\
    pl_weights l = wid /\ bg_loop_ok l /\ length (pl_starts l) = length ul /\
    cg_n (pl_graph l) = list_sum tots /\ pl_order l = seq 0 (list_sum tots) /\
    Permutation (map fst units) (map fst ul) /\
    Forall2 (fun u p => begins (snd u) p) units (pl_starts l) /\ Forall2 (fun u p => finishes (snd u) p) units (pl_ends l) /\
    (forall i, (i < list_sum tots)%nat -> ex (cg_trans (pl_graph l) i i) < 1) /\
    (forall ls, ls <> [] -> cg_accepts (pl_graph l) (pl_order l) ls <-> sayable group ul units ls).
Proof.
  intros conf lines ul group wid H.
  destruct (build_ok conf lines ul group wid H) as (l & units & tots & c & g & E & Ew & Eg & Eo & Ec & En & Em & Hl & Ln & Nu & Pm & HU &
    Wg & Pg & S1 & S2 & S3 & S4 & Hd & HL).
  destruct (build_units conf lines ul group wid l units tots H E) as (B1 & B2 & _ & _).
  exists l, units, tots. split; [exact E|]. split; [exact Ew|]. split; [exact Hl|]. split; [exact Ln|].
  split; [rewrite Eg; exact En|]. split; [rewrite Eo, Em, En; reflexivity|]. split; [exact Pm|]. split; [exact B1|]. split; [exact B2|].
  split.
  - intros i Hi. destruct (diag_ex l c Eg Hd i) as [A|A]; [exact A|lia].
  - intros ls Hne. rewrite Eg, Eo, <- HL. now apply (C155_exact g c 0%nat 1%nat).
Qed.

(** ** The models of the weights *)
Lemma conc_pos n conc : (0 < n)%nat -> match conc with Some c => 0 <= c | None => True end -> 0 < concentration_of n conc.
Proof.
  intros Hn Hc. assert (A := lt_0_INR n Hn). unfold concentration_of. destruct conc as [c|]; [|lra].
  destruct (Req_EM_T c 0); lra.
Qed.

Lemma unigram_made eps prior conc starts ends tr : In prior unigram_priors ->
  exists lo, mkphoneloop eps prior conc starts ends tr = Ok lo /\ lo_bigram lo = false /\
    (prior = Some "dirichlet"%string -> exists a, lo_weights lo = WCat a a).
Proof.
  intros [<-|[<-|[<-|[<-|[]]]]]; unfold mkphoneloop, parse_choice; cbn [existsb prior_names String.eqb Ascii.eqb Bool.eqb orb bindr build mkloop unigram_logw bigram_prior];
    eexists; (split; [reflexivity|]); (split; [reflexivity|]); intros Hp; try discriminate Hp; eexists; reflexivity.
Qed.

Lemma bigram_made eps prior conc starts ends tr : In prior bigram_priors ->
  exists lo, mkphoneloop eps prior conc starts ends tr = Ok lo /\ lo_bigram lo = true.
Proof.
  intros [<-|[<-|[]]]; unfold mkphoneloop, parse_choice; cbn [existsb prior_names String.eqb Ascii.eqb Bool.eqb orb bindr build mkloop unigram_logw bigram_logm bigram_prior];
    eexists; split; reflexivity.
Qed.

Lemma typed_none k D st : typed k D st (Joint []).
Proof. exact I. Qed.

(** The loop can be trained at once: with every set of emissions of the right
    size, and every utterance as long as some sequence of units *)
Theorem C178_unigram : forall eps prior conc conf lines ul group wid, config_ok conf lines ul group ->
  In prior unigram_priors -> match conc with Some c => 0 <= c | None => True end ->
  exists l lo units tots w, make_loop eps prior conc conf lines group wid = Ok (l, lo, units, tots) /\
    build_loop conf lines group wid = Ok (l, units, tots) /\ loop_ok l /\ lo_bigram lo = false /\
    wpar_of (lo_weights lo) = Some w /\ (prior = Some "dirichlet"%string -> exists p q, w = WDir p q) /\
    forall k D skel st, size skel = list_sum tots -> typed k D st skel ->
      lo_trans lo = pw_trans (pw_init l w st) /\ pw_good k D l skel (pw_init l w st) /\
      forall x, spoken k D group ul units x -> pw_utt_ok k D l skel (pw_init l w st) x.
Proof.
  intros eps prior conc conf lines ul group wid H Hpr Hconc.
  destruct (build_ok conf lines ul group wid H) as (l & units & tots & c & g & E & Ew & Eg & Eo & Ec & En & Em & Hl & Ln & Nu & Pm & HU &
    Wg & Pg & S1 & S2 & S3 & S4 & Hd & HL).
  assert (Hloop := proj1 Hl). assert (Kp := pw_K_pos l Hloop).
  assert (Hlt : forall e, In e (pl_ends l) -> ex (cg_trans (pl_graph l) e e) < 1).
  { intros e He. destruct (diag_ex l c Eg Hd e) as [A|A]; [exact A|]. destruct Hloop as (_ & _ & _ & _ & _ & B).
    specialize (B e He). rewrite Eg in B. cbn [to_cgraph cg_n] in B. lia. }
  assert (Hle : forall e, In e (pl_ends l) -> ex (cg_trans (pl_graph l) e e) <= 1) by (intros e He; specialize (Hlt e He); lra).
  destruct (unigram_made eps prior conc (pl_starts l) (pl_ends l) (cg_trans (pl_graph l)) Hpr) as (lo & Elo & Hb & Hdir).
  assert (Hc := conc_pos _ conc Kp Hconc).
  destruct (C171_mkphoneloop eps prior conc KDiag 0 l (Joint []) (fun _ => []) lo Hloop (typed_none _ _ _) Hle Hc Elo Hb)
    as (w & Ewp & Et & (_ & W & _) & _).
  exists l, lo, units, tots, w. split.
  { unfold make_loop. rewrite E. cbn [bindr fst snd]. rewrite Elo. reflexivity. }
  split; [exact E|]. split; [exact Hloop|]. split; [exact Hb|]. split; [exact Ewp|]. split.
  { intros Hp. destruct (Hdir Hp) as (a & Ea). rewrite Ea in Ewp. injection Ewp as <-. eauto. }
  intros k D skel st Hsz T. split; [exact Et|]. split; [now apply C171_creation|].
  intros x Hx. unfold pw_utt_ok.
  apply (utt_spoken k D group ul skel l units tots c g Eg Eo Ec En Em Nu HU Wg Pg S1 S2 S3 S4 Hd HL Hsz); [|exact Hx].
  destruct (tune_tuned l w (cg_trans (pl_graph l)) Hloop W Hle) as ((_ & Tn) & To).
  intros i j Hij. rewrite <- Eg in Hij. revert i j Hij. apply (tuned_keeps l _ _ (fun _ q => elog_weight w q)); auto.
  intros i q Hi Hq. cbv zeta. apply Tn; [now apply nth_In|exact Hq].
Qed.

Theorem C178_bigram : forall eps prior conc conf lines ul group wid, config_ok conf lines ul group ->
  In prior bigram_priors -> match conc with Some c => 0 <= c | None => True end -> 0 <= eps ->
  exists l lo units tots b, make_loop eps prior conc conf lines group wid = Ok (l, lo, units, tots) /\
    build_loop conf lines group wid = Ok (l, units, tots) /\ bg_loop_ok l /\ lo_bigram lo = true /\
    bset_of (lo_weights lo) = Some b /\ (prior = Some "hierarchical_dirichlet_process"%string <-> by_sticks b) /\
    forall k D skel st, size skel = list_sum tots -> typed k D st skel ->
      lo_trans lo = bg_trans (bg_init l b st) /\ bg_good k D l skel (bg_init l b st) /\
      forall x, lu_ali x = None -> spoken k D group ul units x -> bg_utt_ok k D l skel (bg_init l b st) x.
Proof.
  intros eps prior conc conf lines ul group wid H Hpr Hconc Heps.
  destruct (build_ok conf lines ul group wid H) as (l & units & tots & c & g & E & Ew & Eg & Eo & Ec & En & Em & Hl & Ln & Nu & Pm & HU &
    Wg & Pg & S1 & S2 & S3 & S4 & Hd & HL).
  assert (Hloop := proj1 Hl). assert (Kp := pw_K_pos l Hloop).
  assert (Hlt : forall e, In e (pl_ends l) -> ex (cg_trans (pl_graph l) e e) < 1).
  { intros e He. destruct (diag_ex l c Eg Hd e) as [A|A]; [exact A|]. destruct Hloop as (_ & _ & _ & _ & _ & B).
    specialize (B e He). rewrite Eg in B. cbn [to_cgraph cg_n] in B. lia. }
  assert (Hle : forall e, In e (pl_ends l) -> ex (cg_trans (pl_graph l) e e) <= 1) by (intros e He; specialize (Hlt e He); lra).
  destruct (bigram_made eps prior conc (pl_starts l) (pl_ends l) (cg_trans (pl_graph l)) Hpr) as (lo & Elo & Hb).
  assert (Hc := conc_pos _ conc Kp Hconc).
  destruct (C172_mkphoneloop eps prior conc KDiag 0 l (Joint []) (fun _ => []) lo Hl (typed_none _ _ _) Hle Hc Heps Elo Hb)
    as (b & Ewp & Et & (_ & W & _) & Hby).
  exists l, lo, units, tots, b. split.
  { unfold make_loop. rewrite E. cbn [bindr fst snd]. rewrite Elo. reflexivity. }
  split; [exact E|]. split; [exact Hl|]. split; [exact Hb|]. split; [exact Ewp|]. split; [exact Hby|].
  intros k D skel st Hsz T. split; [exact Et|]. split; [now apply C172_creation|].
  intros x Hx1 Hx. split; [exact Hx1|].
  apply (utt_spoken k D group ul skel l units tots c g Eg Eo Ec En Em Nu HU Wg Pg S1 S2 S3 S4 Hd HL Hsz); [|exact Hx].
  destruct (bg_tune_tuned l b (cg_trans (pl_graph l)) Hl W Hle) as ((_ & Tn) & To).
  intros i j Hij. rewrite <- Eg in Hij. revert i j Hij. apply (tuned_keeps l _ _ (elog_used (length (pl_starts l)) b)); auto.
Qed.

(** Training with the commands of the recipes never fails, however the
    utterances are shared between jobs. *)
Theorem C178_unigram_training : forall enum sort amax eps prior conc conf lines ul group wid k D scale ds skel st eg lrate xs jobss,
  config_ok conf lines ul group -> In prior unigram_priors -> match conc with Some c => 0 <= c | None => True end ->
  is_enum enum -> (forall counts, sorts_desc counts (sort counts)) -> 0 <= scale -> (0 < ds)%nat ->
  0 <= lrate <= 1 -> prior = Some "dirichlet"%string \/ lrate = 1 ->
  exists l lo units tots w, make_loop eps prior conc conf lines group wid = Ok (l, lo, units, tots) /\
    wpar_of (lo_weights lo) = Some w /\
    (size skel = list_sum tots -> typed k D st skel -> NoDup (params skel) -> ~ In wid (params skel) ->
     Forall (@NoDup nat) eg -> incl (concat eg) (params skel) ->
     Forall (spoken k D group ul units) xs -> xs <> [] -> Forall (shares xs) jobss ->
     let s := pw_init l w st in let wt := INR ds / INR (loop_frames xs) in
     forall n m, (n <= m <= length jobss)%nat ->
     exists s1 s2 v1 v2,
       loop_rounds enum sort amax scale ds l skel wid eg lrate true xs (firstn n jobss) (s, None) = Ok (s1, v1) /\
       loop_rounds enum sort amax scale ds l skel wid eg lrate true xs (firstn m jobss) (s, None) = Ok (s2, v2) /\
       pw_good k D l skel s2 /\
       (Forall (fun x => lu_ali x <> None) xs -> pw_bound scale wt l skel xs s1 <= pw_bound scale wt l skel xs s2) /\
       (forall i0, one_initial (pl_graph l) i0 -> pw_drawn scale wt l skel xs s1 <= pw_drawn scale wt l skel xs s2)).
Proof.
  intros enum sort amax eps prior conc conf lines ul group wid k D scale ds skel st eg lrate xs jobss H Hpr Hconc He Hso Hs Hds Hlr Hr.
  destruct (C178_unigram eps prior conc conf lines ul group wid H Hpr Hconc) as (l & lo & units & tots & w & E1 & E2 & Hl & _ & Ew & Hdir & HT).
  exists l, lo, units, tots, w. split; [exact E1|]. split; [exact Ew|].
  intros Hsz T Hnd Hwid Hgn Hgi Hx Hne Hj s wt n m Hnm. destruct (HT k D skel st Hsz T) as (_ & G & HU).
  destruct (C176_training enum sort amax k D scale ds l skel wid eg lrate xs jobss s He Hso Hs Hds Hnd Hl Hwid Hgn Hgi G) with (n := n) (m := m)
    as (s1 & s2 & v1 & v2 & A1 & A2 & _ & _ & _ & A3 & _ & A4 & A5); auto.
  - eapply Forall_impl; [|exact Hx]. exact HU.
  - split; [exact Hlr|]. intros _. unfold s, pw_init. cbn [pw_weights]. destruct Hr as [Hp| ->]; [|destruct w; auto].
    destruct (Hdir Hp) as (p & q & ->). exact I.
  - exists s1, s2, v1, v2. auto.
Qed.

Theorem C178_bigram_training : forall enum amax eps prior conc conf lines ul group wid k D scale ds skel st eg lrate xs jobss,
  config_ok conf lines ul group -> In prior bigram_priors -> match conc with Some c => 0 <= c | None => True end -> 0 <= eps ->
  is_enum enum -> 0 <= scale -> (0 < ds)%nat -> 0 <= lrate <= 1 ->
  exists l lo units tots b, make_loop eps prior conc conf lines group wid = Ok (l, lo, units, tots) /\
    bset_of (lo_weights lo) = Some b /\
    (size skel = list_sum tots -> typed k D st skel -> NoDup (params skel) -> ~ In wid (params skel) ->
     Forall (@NoDup nat) eg -> incl (concat eg) (params skel) ->
     Forall (fun x => lu_ali x = None /\ spoken k D group ul units x) xs -> xs <> [] -> Forall (shares xs) jobss ->
     let s := bg_init l b st in let wt := INR ds / INR (loop_frames xs) in
     forall n m, (n <= m <= length jobss)%nat ->
     exists s1 s2 v1 v2,
       bg_rounds enum amax scale ds l skel wid eg lrate true xs (firstn n jobss) (s, None) = Ok (s1, v1) /\
       bg_rounds enum amax scale ds l skel wid eg lrate true xs (firstn m jobss) (s, None) = Ok (s2, v2) /\
       bg_good k D l skel s2 /\
       (prior = Some "hierarchical_dirichlet_process"%string -> bg_bound scale wt l skel xs s1 <= bg_bound scale wt l skel xs s2)).
Proof.
  intros enum amax eps prior conc conf lines ul group wid k D scale ds skel st eg lrate xs jobss H Hpr Hconc Heps He Hs Hds Hlr.
  destruct (C178_bigram eps prior conc conf lines ul group wid H Hpr Hconc Heps) as (l & lo & units & tots & b & E1 & E2 & Hl & _ & Ew & Hby & HT).
  exists l, lo, units, tots, b. split; [exact E1|]. split; [exact Ew|].
  intros Hsz T Hnd Hwid Hgn Hgi Hx Hne Hj s wt n m Hnm. destruct (HT k D skel st Hsz T) as (_ & G & HU).
  destruct (C177_training enum amax k D scale ds l skel wid eg lrate xs jobss s He Hs Hds Hnd Hl Hwid Hgn Hgi G) with (n := n) (m := m)
    as (s1 & s2 & v1 & v2 & A1 & A2 & _ & _ & _ & A3 & _ & A4); auto.
  - eapply Forall_impl; [|exact Hx]. intros x (X1 & X2). now apply HU.
  - exists s1, s2, v1, v2. split; [exact A1|]. split; [exact A2|]. split; [exact A3|]. intros Hp. apply A4. now apply Hby.
Qed.

(** ** Where the loop begins *)

(** When one unit only may begin, and there is no dead end in the topologies,
    the loop has one initial state: the first state of that unit. *)
Theorem C178_one_start : forall conf lines ul gr wid a l units tots, config_ok conf lines ul (Some gr) ->
  (forall g t, In (g, t) conf -> no_dead_end t) ->
  In (a, gr) ul -> (forall b, In (b, gr) ul -> b = a) ->
  build_loop conf lines (Some gr) wid = Ok (l, units, tots) ->
  exists i0 h, In (a, h) units /\ begins h i0 /\ one_initial (pl_graph l) i0.
Proof.
  intros conf lines ul gr wid a l units tots H Hd Ha Huniq E.
  destruct (build_ok conf lines ul (Some gr) wid H) as (l' & units' & tots' & c & g & E' & _ & Eg & Eo & Ec & En & Em & Hl & Ln & Nu & Pm & HU &
    Wg & Pg & S1 & S2 & S3 & S4 & Hdg & HL).
  assert (l' = l) by congruence. subst l'. assert (units' = units) by congruence. subst units'. assert (tots' = tots) by congruence. subst tots'.
  destruct (build_units conf lines ul (Some gr) wid l units tots H E) as (_ & _ & Hun & Hall).
  assert (Hcov : forall p, (p < list_sum tots)%nat -> exists n h, In (n, h) units /\ In p (pdf_id_mapping h)).
  { intros p Hp. assert (Hin : In p (concat (map (fun u => pdf_id_mapping (snd u)) units))) by (rewrite Hall; apply in_seq; lia).
    apply in_concat in Hin. destruct Hin as (ps & Hps & Hp'). apply in_map_iff in Hps. destruct Hps as ([n h] & <- & Hu). eauto. }
  assert (Live : forall n h p, In (n, h) units -> In p (pdf_id_mapping h) -> exists ls, Gb_Spec.accepts h ls /\ In p ls).
  { intros n h p Hin Hp. destruct (Hun n h Hin) as (gn & t & k & m & _ & Ht & Hm & Hc & ->).
    destruct (C64_unit_graph t m k Hm Hc) as (g' & Eg' & _ & _ & _ & _ & _ & _ & _ & G2 & _).
    rewrite (create_unit_graph_eq t k m) in Eg' by auto. assert (g' = unit_of t k m) by congruence. subst g'.
    rewrite G2 in Hp. apply in_seq in Hp. destruct (Hd gn t Ht m Hc (p - k + 1)%nat) as (mid & F & Hi & Hf); [lia|].
    exists (map (fun i => (k + (i - 1))%nat) mid). split; [now apply unit_accepts|]. apply in_map_iff. exists (p - k + 1)%nat. split; [lia|exact Hi]. }
  assert (Hau : In a (map fst units)).
  { apply (Permutation_in _ (Permutation_sym Pm)). apply in_map_iff. exists (a, gr). auto. }
  apply in_map_iff in Hau. destruct Hau as ([a' h] & Ea & Hah). cbn [fst] in Ea. subst a'.
  destruct (Hun a h Hah) as (ga & t & k & m & Hga & Ht & Hm & Hc & Eh).
  destruct (proj1 H ga t Ht) as (_ & m' & e & x & Hc' & Ho & Hen & Hex & Hne).
  assert (m' = m) by (eapply contiguous_unique; eauto). subst m'.
  exists (k + (e - 1))%nat, h. split; [exact Hah|]. split.
  { subst h. destruct Hen as (He & (w & Hw) & _). exists 0%nat, e. split; [reflexivity|]. split.
    - destruct (unit_arc t k m _ _ _ Hw) as (v & Hv). eexists. split; [exact Hv|]. split; reflexivity.
    - simpl. apply unit_sts_in. split; [lia|]. symmetry. apply unit_inner. lia. }
  intros i Hi. destruct (cg_init (pl_graph l) i) eqn:Ei; [reflexivity|]. exfalso. apply Hi. clear Hi.
  assert (Hfin : cg_init (pl_graph l) i <> NInf) by congruence.
  assert (Hin : (i < c_n c)%nat) by (rewrite Eg in Hfin; now apply (init_range g c 0%nat 1%nat)).
  destruct (Hcov i) as (n & hu & Hu & Hp); [lia|].
  destruct (Live n hu i Hu Hp) as (ls & Hls & Hils).
  assert (Hent : In (k + (e - 1))%nat (pdf_id_mapping h)).
  { destruct (C64_unit_graph t m k Hm Hc) as (g' & Eg' & _ & _ & _ & _ & _ & _ & _ & G2 & _).
    rewrite (create_unit_graph_eq t k m) in Eg' by auto. assert (g' = unit_of t k m) by congruence. subst g' h.
    rewrite G2. apply in_seq. destruct Hen as (He & _). lia. }
  destruct (Live a h _ Hah Hent) as (la & Hla & Hila).
  assert (Say : sayable (Some gr) ul units (la ++ ls ++ la)).
  { exists [a; n; a]. split.
    - split.
      + repeat (apply Forall_cons; [|]); [| | |apply Forall_nil]; (apply (Permutation_in _ Pm); apply in_map_iff);
          [exists (a, h)|exists (n, hu)|exists (a, h)]; auto.
      + exists a, a. auto.
    - exists [h; hu; h]. split; [repeat constructor; auto|]. exists [la; ls; la]. split; [repeat constructor; auto|].
      simpl. now rewrite app_nil_r. }
  assert (Ene : la ++ ls ++ la <> []) by (destruct la; [destruct Hila|discriminate]).
  assert (Acc : cg_accepts (to_cgraph c) (c_map c) (la ++ ls ++ la)).
  { apply (C155_exact g c 0%nat 1%nat); auto. now apply HL. }
  rewrite Em in Acc. rewrite Eg in Hfin.
  destruct (from_initial (to_cgraph c) (c_n c) _ i eq_refl Acc) as (ls' & Hls').
  { apply in_app_iff. right. apply in_app_iff. now left. }
  { exact Hfin. }
  rewrite <- Em in Hls'. apply (C155_exact g c 0%nat 1%nat) in Hls'; auto; [|discriminate]. apply HL in Hls'.
  destruct Hls' as (sq & (_ & b & b' & Hhd & _ & Hb & _) & hs & Hhs & lss & Hlss & Econ).
  assert (b = a) by now apply Huniq. subst b.
  destruct sq as [|b sq]; [discriminate|]. cbn [hd_error] in Hhd. injection Hhd as ->.
  inversion Hhs as [|? h1 ? hs1 H1 H1']; subst. inversion Hlss as [|? l1 ? lss1 H2 H2']; subst.
  assert (h1 = unit_of t k m) by (assert (X := sget_units units a h1 Nu H1); assert (Y := sget_units units a _ Nu Hah); congruence). subst h1.
  destruct (unit_first t k m e l1 Hm Ho Hen H2) as (l1' & ->). cbn [concat app] in Econ. congruence.
Qed.

(** ** The units of the recipes *)
Lemma aud_config ul group : aud_units ul group -> config_ok aud_conf (map (fun u => [fst u; snd u]) ul) ul group.
Proof.
  intros (Hnd & Hsp & Hg & (a & Ha) & (b & Hb) & Hgr). split.
  - intros g t [Ht|[Ht|[]]]; injection Ht as <- <-; [exact nonspeech_ok|exact speech_ok].
  - split; [reflexivity|]. split.
    { intros ->. destruct Hb. }
    split; [intros g [<-|[<-|[]]]; eauto|]. split; [exact Hnd|]. split; [|split; [exact Hsp|]].
    + intros u Hu. destruct (Hg u Hu) as [-> | ->]; simpl; auto.
    + destruct Hgr as [-> | ->]; discriminate.
Qed.

Lemma aud_unit ul group wid l units tots n h : aud_units ul group ->
  build_loop aud_conf (map (fun u => [fst u; snd u]) ul) group wid = Ok (l, units, tots) -> In (n, h) units ->
  forall T, (exists ls, Gb_Spec.accepts h ls /\ length ls = T) <-> (3 <= T)%nat.
Proof.
  intros Hu E Hin. destruct (build_units _ _ ul group wid l units tots (aud_config ul group Hu) E) as (_ & _ & Hun & _).
  destruct (Hun n h Hin) as (gr & t & k & m & _ & Ht & _ & Hc & ->).
  destruct Ht as [Ht|[Ht|[]]]; injection Ht as _ <-.
  - apply nonspeech_contiguous in Hc. subst m. apply nonspeech_frames.
  - apply speech_contiguous in Hc. subst m. apply speech_frames.
Qed.

(** An utterance without alignment can be used for training if and only if it
    has at least three frames. *)
Theorem C178_aud_frames : forall ul group wid k D x xs l units tots, aud_units ul group ->
  build_loop aud_conf (map (fun u => [fst u; snd u]) ul) group wid = Ok (l, units, tots) ->
  lu_ali x = None -> lu_stats x = map (suff k) xs -> Forall (frame_ok k D) xs -> xs <> [] ->
  (spoken k D group ul units x <-> (3 <= length xs)%nat).
Proof.
  intros ul group wid k D x xs l units tots Hu E Ex Es Hf Hne.
  assert (Len : length (lu_stats x) = length xs) by (rewrite Es; apply map_length).
  assert (Hfr := fun n h H => aud_unit ul group wid l units tots n h Hu E H). split.
  - intros (ys & Ey & _ & Hyn & Hs). rewrite Ex in Hs. destruct Hs as (ls & (sq & _ & hs & Hhs & lss & Hlss & ->) & Hlen).
    assert (Hxy : length ys = length xs) by (rewrite <- Len, Ey, map_length; reflexivity). rewrite <- Hxy, <- Hlen.
    destruct Hhs as [|n h sq hs Hh Hhs].
    + inversion Hlss; subst. destruct ys; [congruence|discriminate Hlen].
    + inversion Hlss as [|? l1 ? lss1 H1 H2]; subst. cbn [concat]. rewrite app_length.
      assert (3 <= length l1)%nat by (apply (Hfr n h Hh); eauto). lia.
  - intros HT. exists xs. split; [exact Es|]. split; [exact Hf|]. split; [exact Hne|]. rewrite Ex.
    destruct (C178_loop _ _ ul group wid (aud_config ul group Hu)) as (l' & units' & tots' & E' & _ & _ & _ & _ & _ & Pm & _).
    assert (units' = units) by congruence. subst units'.
    assert (Hn : exists a, In a (map fst ul) /\ match group with None => True | Some gr => In (a, gr) ul end).
    { destruct Hu as (_ & _ & _ & (a & Hin) & _ & Hg). exists a. split.
      - apply in_map_iff. exists (a, "non-speech-unit"%string). auto.
      - destruct Hg as [-> | ->]; [exact I|exact Hin]. }
    destruct Hn as (a & Hin & Hgr). assert (Hau := Permutation_in _ (Permutation_sym Pm) Hin).
    apply in_map_iff in Hau. destruct Hau as ([a' h] & Ea & Hah). cbn [fst] in Ea. subst a'.
    destruct (proj2 (Hfr a h Hah (length xs)) HT) as (ls & Hls & Hlen). exists ls. split; [|exact Hlen].
    exists [a]. split.
    + split; [constructor; auto|]. destruct group as [gr|]; [|exact I]. exists a, a. auto.
    + exists [h]. split; [constructor; auto|]. exists [ls]. split; [constructor; auto|]. simpl. now rewrite app_nil_r.
Qed.

(** The number of emissions the commands create *)
Theorem C178_aud_size : forall ul group wid l units tots, aud_units ul group ->
  build_loop aud_conf (map (fun u => [fst u; snd u]) ul) group wid = Ok (l, units, tots) ->
  list_sum tots = list_sum (map aud_states ul).
Proof.
  intros ul group wid l units tots Hu E. assert (Hc := aud_config ul group Hu).
  destruct (build_units _ _ ul group wid l units tots Hc E) as (_ & _ & Hun & Hall).
  destruct (C178_loop _ _ ul group wid Hc) as (l' & units' & tots' & E' & _ & _ & _ & _ & _ & Pm & _).
  assert (units' = units) by congruence. subst units'.
  destruct Hu as (Hnd & _).
  set (F := fun n => match sget n ul with Ok g => aud_states (n, g) | Err _ => 0%nat end).
  assert (A : list_sum tots = list_sum (map F (map fst units))).
  { rewrite <- (seq_length (list_sum tots) 0), <- Hall, map_map. clear - Hun Hnd.
    induction units as [|[n h] us IH]; [reflexivity|]. cbn [map concat fst snd list_sum fold_right].
    rewrite app_length. unfold list_sum in *. cbn [fold_right]. f_equal; [|apply IH; intros; apply Hun; now right].
    destruct (Hun n h (or_introl eq_refl)) as (gr & t & k & m & Hin & Ht & Hm & Hc & ->).
    destruct (C64_unit_graph t m k Hm Hc) as (g' & Eg' & _ & _ & _ & _ & _ & _ & _ & G2 & _).
    rewrite (create_unit_graph_eq t k m) in Eg' by auto. assert (g' = unit_of t k m) by congruence. subst g'.
    rewrite G2, seq_length. unfold F. rewrite (sget_nodup n ul gr Hnd Hin).
    destruct Ht as [Ht|[Ht|[]]]; injection Ht as <- <-.
    - apply nonspeech_contiguous in Hc. subst m. reflexivity.
    - apply speech_contiguous in Hc. subst m. reflexivity. }
  assert (B : list_sum (map aud_states ul) = list_sum (map F (map fst ul))).
  { rewrite map_map. f_equal. apply map_ext_in. intros [n g] Hin. unfold F. cbn [fst]. now rewrite (sget_nodup n ul g Hnd Hin). }
  rewrite A, B. clear - Pm. induction Pm; cbn [map list_sum fold_right] in *; unfold list_sum in *; cbn [fold_right] in *; lia.
Qed.

(** Training with the shipped units, the default model of the weights and the
    default learning rate: whatever the units, the mixtures and the data, as long
    as each utterance has three frames, no command fails.  With one non-speech
    unit the bound of the loop that draws its first unit as well never decreases. *)
Theorem C178_aud_training : forall enum sort amax eps conc ul group wid k D scale ds skel st eg xs jobss,
  aud_units ul group -> match conc with Some c => 0 <= c | None => True end ->
  is_enum enum -> (forall counts, sorts_desc counts (sort counts)) -> 0 <= scale -> (0 < ds)%nat ->
  exists l lo units tots w, make_loop eps None conc aud_conf (map (fun u => [fst u; snd u]) ul) group wid = Ok (l, lo, units, tots) /\
    wpar_of (lo_weights lo) = Some w /\
    (size skel = list_sum (map aud_states ul) -> typed k D st skel -> NoDup (params skel) -> ~ In wid (params skel) ->
     Forall (@NoDup nat) eg -> incl (concat eg) (params skel) ->
     Forall (fun x => lu_ali x = None /\ exists ys, lu_stats x = map (suff k) ys /\ Forall (frame_ok k D) ys /\ (3 <= length ys)%nat) xs ->
     xs <> [] -> Forall (shares xs) jobss ->
     let s := pw_init l w st in let wt := INR ds / INR (loop_frames xs) in
     forall n m, (n <= m <= length jobss)%nat ->
     exists s1 s2 v1 v2,
       loop_rounds enum sort amax scale ds l skel wid eg 1 true xs (firstn n jobss) (s, None) = Ok (s1, v1) /\
       loop_rounds enum sort amax scale ds l skel wid eg 1 true xs (firstn m jobss) (s, None) = Ok (s2, v2) /\
       pw_good k D l skel s2 /\
       (forall a, group = Some "non-speech-unit"%string -> In (a, "non-speech-unit"%string) ul ->
          (forall b, In (b, "non-speech-unit"%string) ul -> b = a) ->
          pw_drawn scale wt l skel xs s1 <= pw_drawn scale wt l skel xs s2)).
Proof.
  intros enum sort amax eps conc ul group wid k D scale ds skel st eg xs jobss Hu Hconc He Hso Hs Hds.
  assert (Hc := aud_config ul group Hu).
  destruct (C178_unigram_training enum sort amax eps None conc aud_conf _ ul group wid k D scale ds skel st eg 1 xs jobss Hc)
    as (l & lo & units & tots & w & E1 & Ew & HT); auto.
  { simpl. tauto. }
  { lra. }
  assert (E2 : build_loop aud_conf (map (fun u => [fst u; snd u]) ul) group wid = Ok (l, units, tots)).
  { unfold make_loop in E1. apply bindr_inv in E1. destruct E1 as ([[l' u'] t'] & E2 & E1). cbn [fst snd] in E1.
    apply bindr_inv in E1. destruct E1 as (lo' & _ & E1). rewrite E2. congruence. }
  exists l, lo, units, tots, w. split; [exact E1|]. split; [exact Ew|].
  rewrite <- (C178_aud_size ul group wid l units tots Hu E2).
  intros Hsz T Hnd Hwid Hgn Hgi Hx Hne Hj s wt n m Hnm.
  destruct (HT Hsz T Hnd Hwid Hgn Hgi) with (n := n) (m := m) as (s1 & s2 & v1 & v2 & A1 & A2 & A3 & _ & A5); auto.
  { eapply Forall_impl; [|exact Hx]. intros x (Xa & ys & Xs & Xf & Xl).
    apply (C178_aud_frames ul group wid k D x ys l units tots); auto. intros ->. simpl in Xl. lia. }
  exists s1, s2, v1, v2. split; [exact A1|]. split; [exact A2|]. split; [exact A3|].
  intros a -> Ha Hun.
  destruct (C178_one_start aud_conf _ ul "non-speech-unit"%string wid a l units tots Hc) as (i0 & h & _ & _ & Hi); auto.
  { intros g t [Ht|[Ht|[]]]; injection Ht as <- <-; [exact nonspeech_alive|exact speech_alive]. }
  exact (A5 i0 Hi).
Qed.

Lemma make_built eps prior conc conf lines group wid l lo units tots :
  make_loop eps prior conc conf lines group wid = Ok (l, lo, units, tots) -> build_loop conf lines group wid = Ok (l, units, tots).
Proof.
  intros E. unfold make_loop in E. apply bindr_inv in E. destruct E as ([[l' u'] t'] & E2 & E). cbn [fst snd] in E.
  apply bindr_inv in E. destruct E as (lo' & _ & E). rewrite E2. congruence.
Qed.

(** Silence and one unit, eight Gaussians, an utterance of three frames and one
    of five *)
Definition ux_units : list (string * string) := [("sil", "non-speech-unit"); ("au1", "speech-unit")]%string.
Definition ux_skel : mset := Leaf 1 4 [[]; []; []; []; []; []; []; []] 0.
Definition ux_st : state := fun _ => map (fun m => CDiag (ex_ng 0) (ex_ng m)) [0; 1; 2; 3; 4; 5; 6; 7].
Definition ux_utt (f : list R) : lutt := {| lu_ali := None; lu_stats := map (fun v => suff KDiag [v]) f |}.

Lemma ux_aud : aud_units ux_units (Some "non-speech-unit"%string).
Proof.
  split; [|split; [|split]].
  - constructor; [intros [H|[]]; discriminate|]. constructor; [intros []|constructor].
  - intros u [<-|[<-|[]]]; repeat split; discriminate.
  - intros u [<-|[<-|[]]]; [left|right]; reflexivity.
  - split; [exists "sil"%string; now left|]. split; [exists "au1"%string; right; now left|]. now right.
Qed.

Lemma ux_typed : typed KDiag 1 ux_st ux_skel.
Proof.
  cbn [typed ux_skel]. split; [reflexivity|]. split; [reflexivity|].
  change (Forall (leaf_cell KDiag 1) (map (fun m => CDiag (ex_ng 0) (ex_ng m)) [0; 1; 2; 3; 4; 5; 6; 7])).
  apply Forall_map, Forall_forall. intros m _.
  assert (Hng : forall m, ng_ok 1 (ex_ng m)).
  { intros v. unfold ng_ok, ex_ng. cbn [ng_mean ng_rates ng_scale ng_shape length].
    split; [reflexivity|]. split; [reflexivity|]. split; [lra|]. split; [lra|]. constructor; [lra|constructor]. }
  split; apply Hng.
Qed.

Lemma ux_frames f : lu_stats (ux_utt f) = map (suff KDiag) (map (fun v => [v]) f) /\ Forall (frame_ok KDiag 1) (map (fun v => [v]) f).
Proof.
  split; [cbn [ux_utt lu_stats]; now rewrite map_map|]. apply Forall_map, Forall_forall. intros v _. split; [reflexivity|exact I].
Qed.

Example C178_ex : forall enum sort amax, is_enum enum -> (forall counts, sorts_desc counts (sort counts)) ->
  let xs := [ux_utt [0; 3; 5]; ux_utt [1; 1; 4; 4; 7]] in
  exists l lo units tots w s1 v1 s2 v2,
    make_loop 1 None None aud_conf [["sil"; "non-speech-unit"]; ["au1"; "speech-unit"]]%string (Some "non-speech-unit"%string) 9 =
      Ok (l, lo, units, tots) /\ wpar_of (lo_weights lo) = Some w /\ list_sum tots = 8%nat /\
    loop_rounds enum sort amax 1 8 l ux_skel 9 [[1]]%nat 1 true xs [[[0]; [1]]]%nat (pw_init l w ux_st, None) = Ok (s1, v1) /\
    loop_rounds enum sort amax 1 8 l ux_skel 9 [[1]]%nat 1 true xs [[[0]; [1]]; [[1; 0]]]%nat (pw_init l w ux_st, None) = Ok (s2, v2) /\
    pw_drawn 1 1 l ux_skel xs (pw_init l w ux_st) <= pw_drawn 1 1 l ux_skel xs s1 <= pw_drawn 1 1 l ux_skel xs s2.
Proof.
  intros enum sort amax He Hso xs.
  destruct (C178_aud_training enum sort amax 1 None ux_units (Some "non-speech-unit"%string) 9 KDiag 1 1 8 ux_skel ux_st [[1]]%nat
    xs [[[0]; [1]]; [[1; 0]]]%nat ux_aud I He Hso Rle_0_1 ltac:(lia)) as (l & lo & units & tots & w & E & Ew & HT).
  assert (Es : list_sum tots = 8%nat).
  { rewrite (C178_aud_size _ _ _ _ _ _ ux_aud (make_built _ _ _ _ _ _ _ _ _ _ _ E)). reflexivity. }
  assert (El : map (fun u : string * string => [fst u; snd u]) ux_units = [["sil"; "non-speech-unit"]; ["au1"; "speech-unit"]]%string) by reflexivity.
  rewrite El in E.
  assert (Hg : Forall (@NoDup nat) [[1]]%nat).
  { constructor; [|constructor]. constructor; [intros []|constructor]. }
  assert (N : NoDup (params ux_skel)) by (constructor; [intros []|constructor]).
  assert (Hw : ~ In 9%nat (params ux_skel)) by (intros [H|[]]; discriminate).
  assert (Hj : Forall (shares xs) [[[0]; [1]]; [[1; 0]]]%nat).
  { constructor; [apply Permutation_refl|]. constructor; [apply perm_swap|constructor]. }
  assert (Fx : Forall (fun x => lu_ali x = None /\ exists ys, lu_stats x = map (suff KDiag) ys /\ Forall (frame_ok KDiag 1) ys /\ (3 <= length ys)%nat) xs).
  { repeat (apply Forall_cons; [split; [reflexivity|]; eexists; split; [apply ux_frames|]; split; [apply ux_frames|simpl; lia]|]). apply Forall_nil. }
  assert (T := HT eq_refl ux_typed N Hw Hg (incl_refl _) Fx ltac:(discriminate) Hj). clear HT.
  assert (Ewt : INR 8 / INR (loop_frames xs) = 1) by (cbn; lra).
  cbv zeta in T. rewrite Ewt in T.
  assert (Hun : forall b, In (b, "non-speech-unit"%string) ux_units -> b = "sil"%string).
  { intros b [H|[H|[]]]; congruence. }
  destruct (T 0%nat 1%nat) as (s0 & s1 & v0 & v1 & A0 & A1 & _ & B1); [cbn; lia|].
  destruct (T 1%nat 2%nat) as (s1' & s2 & v1' & v2 & A1' & A2 & _ & B2); [cbn; lia|].
  cbn [firstn] in *. rewrite A1 in A1'. injection A1' as <- <-. injection A0 as <- <-.
  exists l, lo, units, tots, w, s1, v1, s2, v2. split; [exact E|]. split; [exact Ew|]. split; [exact Es|]. split; [exact A1|]. split; [exact A2|].
  assert (Hin : In ("sil", "non-speech-unit")%string ux_units) by now left.
  split; [exact (B1 "sil"%string eq_refl Hin Hun)|exact (B2 "sil"%string eq_refl Hin Hun)].
Qed.

Print Assumptions C178_loop.
Print Assumptions C178_unigram.
Print Assumptions C178_bigram.
Print Assumptions C178_unigram_training.
Print Assumptions C178_bigram_training.
Print Assumptions C178_one_start.
Print Assumptions C178_aud_frames.
Print Assumptions C178_aud_size.
Print Assumptions C178_aud_training.

(** C182: decoding with a phone-loop. *)
From Coq Require Import Reals String List Arith Bool Lia Lra Permutation ZArith.
From Verif Require Import Prelude Vec Edit_Model Edit_Proofs Dec_Model Dec_Spec Dec_Proofs Opt_Model Opt_Spec Opt_Proofs Opt_Pipe.
From Verif Require Import FB_Model FB_Spec FB_Proofs FB_Viterbi Graph_Model Graph_Spec Graph_Proofs Graph_Eps Graph_Hist
  Graph_Lang Graph_Props Gb_Model Gb_Spec Gb_Lang Gb_Proofs Gb_Loop Gb_Props Cl_Props Pa_Model Pa_Spec Pa_Proofs Pa_Rank Pa_Props.
From Verif Require Import Gibbs Lgamma Set_Model Set_Spec Set_Proofs
  HMM_Model HMM_Spec HMM_Proofs HMM_Props Dist_Model Dist_Spec Dist_Proofs Mat NW_Model NW_Spec
  SB_Model SB_Spec Sk_Model Sk_Spec Df_Model Pl_Model
  Vt_Model Vt_Spec Vt_Proofs Vt_Props Vl_Model Vl_Spec Vl_Proofs Vl_Props Mx_Model Mx_Spec Mx_Proofs Mx_Props
  Pw_Model Pw_Spec Pw_Proofs Pw_Props Bg_Model Bg_Spec Bg_Proofs Bg_Props
  Dt_Model Dt_Spec Dt_Proofs Dt_Props Dl_Model Dl_Spec Dl_Proofs Dl_Props Db_Model Db_Proofs Db_Props Rp_Graph Rp_Model Rp_Spec Rp_Proofs Rp_Start
  Rp_Props De_Model De_Spec De_Proofs.
Import ListNotations.
Local Open Scope R_scope.

(** The output for an utterance is right: the states are those of the most likely
    path, the units are those the path goes through, and the loop allows them. *)
Definition decodes (amax : nat -> (nat -> lp) -> nat) (scale : R) (group : option string) (ul : list (string * string))
  (units : list (string * graph)) (l : ploop) (m : mset) (tr : nat -> nat -> lp) (x : lutt) : Prop :=
  exists path sq lss, decode_path amax scale m l tr x = Ok path /\
    most_likely (with_trans (pl_graph l) tr) (HMM_Spec.frames scale (denote m) (lu_stats x)) path /\
    loop_seq group ul sq /\ reads units sq lss path /\
    decode_utt amax scale false m l (map fst units) tr x = Ok sq /\
    decode_utt amax scale true m l (map fst units) tr x = Ok (per_frame_units sq lss).

Section Loop.
  Variables (conf : list (string * list (nat * nat * R))) (lines : list (list string)) (ul : list (string * string))
    (group : option string) (wid : nat) (l : ploop) (units : list (string * graph)) (tots : list nat).
  Hypothesis Hcfg : config_ok conf lines ul group.
  Hypothesis Hent : forall g t, In (g, t) conf -> entered_once t /\ no_dead_end t.
  Hypothesis Eb : build_loop conf lines group wid = Ok (l, units, tots).

  Lemma units_are n h : In (n, h) units -> exists t k m e x, (2 <= m)%nat /\ contiguous t m /\ one_way t m /\
    single_entry t m e /\ single_exit t m x /\ e <> x /\ entered_once t /\ no_dead_end t /\ h = unit_of t k m.
  Proof.
    intros Hin. destruct (build_units conf lines ul group wid l units tots Hcfg Eb) as (_ & _ & Hun & _).
    destruct (Hun n h Hin) as (gr & t & k & m & _ & Ht & Hm & Hc & ->).
    destruct (proj1 Hcfg gr t Ht) as (_ & m' & e & x & Hc' & Ho & Hen & Hex & Hne).
    assert (m' = m) by (eapply contiguous_unique; eauto). subst m'.
    destruct (Hent gr t Ht) as (H1 & H2). exists t, k, m, e, x. repeat (split; [assumption|]). reflexivity.
  Qed.

  Lemma decoded sq lss path : reads units sq lss path -> path <> [] ->
    bindr (state2phone path (start_pdf l) false) (fun ps => Ok (map (fun i => nth i (map fst units) ""%string) ps)) = Ok sq /\
    bindr (state2phone path (start_pdf l) true) (fun ps => Ok (map (fun i => nth i (map fst units) ""%string) ps)) = Ok (per_frame_units sq lss).
  Proof.
    destruct (build_units conf lines ul group wid l units tots Hcfg Eb) as (B1 & _ & _ & B4).
    destruct (C178_loop conf lines ul group wid Hcfg) as (l' & units' & tots' & E' & _ & ((Ns & _) & _) & _).
    rewrite Eb in E'. injection E' as <- <- <-.
    apply (units_read units l (list_sum tots)); auto.
    intros n h Hin. destruct (units_are n h Hin) as (t & k & m & e & x & H1 & H2 & H3 & H4 & H5 & H6 & H7 & _ & H8).
    exists t, k, m, e, x. repeat (split; [assumption|]). exact H8.
  Qed.

  (** In the decoding graph, every unit can follow every unit. *)
  Lemma loop_links ls0 i j : sayable group ul units ls0 -> ls0 <> [] -> In i (pl_ends l) -> In j (pl_starts l) ->
    cg_trans (pl_graph l) i j <> NInf.
  Proof.
    intros (sq0 & Hseq & hs0 & Hhs & lss0 & Hlss & E0) Hne Hi Hj.
    destruct (build_units conf lines ul group wid l units tots Hcfg Eb) as (B1 & B2 & _ & _).
    destruct (C178_loop conf lines ul group wid Hcfg) as (l' & units' & tots' & E' & _ & _ & _ & En & Eo & Pm & _ & _ & _ & HL).
    rewrite Eb in E'. injection E' as <- <- <-.
    destruct (In_nth_error _ _ Hi) as (a & Ha). destruct (In_nth_error _ _ Hj) as (b & Hb).
    assert (L1 := F2_len _ _ _ B1). assert (L2 := F2_len _ _ _ B2).
    destruct (nth_error units a) as [[n h]|] eqn:Eu.
    2:{ apply nth_error_None in Eu. assert (nth_error (pl_ends l) a = None) by (apply nth_error_None; lia). congruence. }
    destruct (nth_error units b) as [[n' h']|] eqn:Ev.
    2:{ apply nth_error_None in Ev. assert (nth_error (pl_starts l) b = None) by (apply nth_error_None; lia). congruence. }
    destruct (Forall2_nth_error _ _ _ B2 a _ Eu) as (p & Hp & Fp). destruct (Forall2_nth_error _ _ _ B1 b _ Ev) as (q & Hq & Fq).
    assert (p = i) by congruence. assert (q = j) by congruence. subst p q. cbn [snd] in Fp, Fq.
    apply nth_error_In in Eu, Ev.
    assert (A1 : exists ls, Gb_Spec.accepts h (ls ++ [i])).
    { destruct (units_are n h Eu) as (t & k & m & e & x & H1 & H2 & H3 & H4 & H5 & H6 & H7 & H8 & ->).
      rewrite (unit_finishes t k m e x H1 H5 H6 i Fp). now apply (unit_ends t k m x). }
    assert (A2 : exists ls, Gb_Spec.accepts h' (j :: ls)).
    { destruct (units_are n' h' Ev) as (t & k & m & e & x & H1 & H2 & H3 & H4 & H5 & H6 & H7 & H8 & ->).
      rewrite (unit_begins t k m e x H1 H3 H4 H6 j Fq). now apply (unit_starts t k m e x). }
    destruct A1 as (la & Hla). destruct A2 as (lb & Hlb).
    set (ls := ls0 ++ (la ++ [i]) ++ (j :: lb) ++ ls0).
    assert (Hs : sayable group ul units ls).
    { exists (sq0 ++ n :: n' :: sq0). split.
      - destruct Hseq as (F & G). split.
        + apply Forall_app. split; [exact F|].
          constructor; [apply (Permutation_in _ Pm); apply in_map_iff; now exists (n, h)|].
          constructor; [apply (Permutation_in _ Pm); apply in_map_iff; now exists (n', h')|exact F].
        + destruct group as [gr|]; [|exact I]. destruct G as (x & y & G1 & G2 & G3 & G4). exists x, y.
          destruct sq0 as [|z sq0]; [discriminate|]. cbn [hd_error] in G1. injection G1 as ->. split; [reflexivity|]. split; [|auto].
          rewrite <- G2. clear.
          replace ((x :: sq0) ++ n :: n' :: x :: sq0) with (((x :: sq0) ++ [n; n']) ++ (x :: sq0)) by (rewrite <- app_assoc; reflexivity).
          generalize ((x :: sq0) ++ [n; n']) as pre. induction pre as [|c pre IH]; [reflexivity|].
          cbn [app]. destruct (pre ++ x :: sq0) eqn:E; [destruct pre; discriminate|]. exact IH.
      - exists (hs0 ++ h :: h' :: hs0). split.
        + apply Forall2_app; [exact Hhs|]. constructor; [exact Eu|]. constructor; [exact Ev|exact Hhs].
        + exists (lss0 ++ (la ++ [i]) :: (j :: lb) :: lss0). split.
          * apply Forall2_app; [exact Hlss|]. constructor; [exact Hla|]. constructor; [exact Hlb|exact Hlss].
          * unfold ls. rewrite E0, concat_app. cbn [concat]. reflexivity. }
    assert (Hn : ls <> []) by (unfold ls; destruct ls0; [congruence|discriminate]).
    apply (HL ls Hn) in Hs. destruct Hs as (p & Hp' & Hsc & El). apply in_paths in Hp'. destruct Hp' as (_ & Fp').
    rewrite Eo, seq_labels in El by (now rewrite <- En). subst p.
    assert (Els : ls = (ls0 ++ la) ++ i :: j :: lb ++ ls0) by (unfold ls; rewrite <- !app_assoc; reflexivity).
    rewrite Els in Hsc at 2. now apply path_link in Hsc.
  Qed.

  Lemma decode_own amax scale k D skel st tr x : is_argmax amax -> size skel = list_sum tots -> typed k D st skel -> loop_trans l tr ->
    spoken k D group ul units x -> lu_ali x = None ->
    decodes amax scale group ul units l (inst (forms st) skel) tr x.
  Proof.
    intros Ha Hsz T (T1 & T2) Hx Hali. set (m := inst (forms st) skel).
    destruct (build_ok conf lines ul group wid Hcfg) as (l' & units' & tots' & c & g & E' & _ & Eg & Eo & Ec & En & Em & Hl & Ln & Nu & Pm & HU &
      Wg & Pg & S1 & S2 & S3 & S4 & Hdg & HL).
    rewrite Eb in E'. injection E' as <- <- <-.
    assert (Hx0 := Hx). destruct Hx0 as (xs & Ex & Fx & Hne & Hsay). rewrite Hali in Hsay. destruct Hsay as (ls0 & Hsay & Hlen).
    assert (Hls0 : ls0 <> []) by (destruct ls0; [destruct xs; [congruence|discriminate]|discriminate]).
    assert (U : utt_ok k D skel (lu_utt l tr x)).
    { apply (utt_spoken k D group ul skel l units tots c g Eg Eo Ec En Em Nu HU Wg Pg S1 S2 S3 S4 Hdg HL Hsz tr x); [|exact Hx].
      intros i j Hij. destruct (in_dec Nat.eq_dec i (pl_ends l)) as [Hi|Hi]; [|rewrite T1 by tauto; now rewrite Eg].
      destruct (in_dec Nat.eq_dec j (pl_starts l)) as [Hj|Hj]; [|rewrite T1 by tauto; now rewrite Eg]. now apply T2. }
    assert (Eu : lu_utt l tr x = {| u_graph := with_trans (pl_graph l) tr; u_order := pl_order l; u_own := true; u_stats := lu_stats x |})
      by (unfold lu_utt; now rewrite Hali).
    destruct (decode_best amax k D skel st scale (lu_utt l tr x) Ha T U) as (best & E & B1 & B2 & B3). fold m in E, B2, B3.
    rewrite Eu in *. cbn [u_graph u_order u_stats] in *.
    assert (Eor : pl_order l = seq 0 (list_sum tots)) by (rewrite Eo, Em, En; reflexivity).
    assert (Ecg : cg_n (with_trans (pl_graph l) tr) = list_sum tots) by (cbn [with_trans cg_n]; rewrite Eg; exact En).
    assert (Eden : map (fun o => nth o (denote m) e0) (pl_order l) = denote m).
    { rewrite Eor, <- Hsz. assert (Ld : length (denote m) = size skel) by (rewrite denote_length; unfold m; now apply (inst_size k D)).
      rewrite <- Ld. clear. apply (nth_ext _ _ e0 e0); [now rewrite map_length, seq_length|].
      intros i Hi. rewrite map_length, seq_length in Hi. rewrite (map_nth_lt _ _ _ 0%nat) by (now rewrite seq_length). now rewrite seq_nth. }
    rewrite Eden in B2, B3.
    assert (Fb : Forall (fun i => (i < list_sum tots)%nat) best) by (apply in_paths in B1; rewrite <- Ecg; apply B1).
    assert (Epath : map (fun s => nth s (pl_order l) 0%nat) best = best) by (rewrite Eor; now apply seq_labels).
    rewrite Epath in E. set (rows := HMM_Spec.frames scale (denote m) (lu_stats x)) in *.
    assert (Lr : length rows = length (lu_stats x)) by (unfold rows, HMM_Spec.frames; apply map_length).
    assert (Bn : best <> []).
    { apply in_paths in B1. destruct B1 as (B1 & _). intros ->. rewrite Ex in B1. destruct xs; [congruence|discriminate]. }
    assert (Say : sayable group ul units best).
    { apply HL. apply (C155_exact g c 0%nat 1%nat); auto. rewrite <- Eg, <- Eo.
      assert (Acc := score_accepts (pl_graph l) (pl_order l) rows best). rewrite Epath in Acc. apply Acc.
      - rewrite Lr. exact B1.
      - apply (path_keep (with_trans (pl_graph l) tr) (pl_graph l)); [reflexivity|reflexivity| |exact B3].
        cbn [with_trans cg_trans]. intros i j Hij. destruct (in_dec Nat.eq_dec i (pl_ends l)) as [Hi|Hi]; [|rewrite T1 in Hij by tauto; exact Hij].
        destruct (in_dec Nat.eq_dec j (pl_starts l)) as [Hj|Hj]; [|rewrite T1 in Hij by tauto; exact Hij].
        now apply (loop_links ls0). }
    destruct Say as (sq & Hsq & hs & Hhs & lss & Hlss & Econ).
    assert (Rd : reads units sq lss best) by (exists hs; auto).
    destruct (decoded sq lss best Rd Bn) as (D1 & D2).
    assert (Edec : decode_path amax scale m l tr x = Ok best) by (unfold decode_path; rewrite Eu; exact E).
    exists best, sq, lss. split; [exact Edec|]. split.
    { unfold most_likely. fold m. fold rows. split; rewrite Lr; [exact B1|exact B2]. }
    split; [exact Hsq|]. split; [exact Rd|].
    unfold decode_utt. rewrite Edec. cbn [bindr]. auto.
  Qed.
End Loop.

(** Every utterance that some sequence of units can produce is decoded.  The path
    is the most likely one under the current parameters of the loop.  The output
    is the sequence of units this path goes through, which the loop allows; and
    the unit of each frame with --per-frame. *)
Theorem C182_loop : forall amax scale conf lines ul group wid l units tots k D skel st tr x,
  is_argmax amax -> config_ok conf lines ul group -> (forall g t, In (g, t) conf -> entered_once t /\ no_dead_end t) ->
  build_loop conf lines group wid = Ok (l, units, tots) -> size skel = list_sum tots -> typed k D st skel -> loop_trans l tr ->
  spoken k D group ul units x -> lu_ali x = None ->
  decodes amax scale group ul units l (inst (forms st) skel) tr x.
Proof. intros. eapply decode_own; eauto. Qed.

(** With its alignment graph, the output is the transcription of the utterance,
    along a most likely path of that graph. *)
Theorem C182_alignment : forall amax scale conf lines ul group wid l units tots k D skel st tr x xs sq c ls,
  is_argmax amax -> config_ok conf lines ul group -> (forall g t, In (g, t) conf -> entered_once t /\ no_dead_end t) ->
  build_loop conf lines group wid = Ok (l, units, tots) -> size skel = list_sum tots -> typed k D st skel ->
  lu_stats x = map (suff k) xs -> Forall (frame_ok k D) xs -> xs <> [] ->
  create_graph_from_seq sq units = Ok c -> lu_ali x = Some (to_cgraph c, c_map c) -> said units sq ls -> length ls = length xs ->
  let m := inst (forms st) skel in
  exists best lss, let path := map (fun s => nth s (c_map c) 0%nat) best in
    most_likely (to_cgraph c) (HMM_Spec.frames scale (map (fun o => nth o (denote m) e0) (c_map c)) (lu_stats x)) best /\
    decode_path amax scale m l tr x = Ok path /\ reads units sq lss path /\
    decode_utt amax scale false m l (map fst units) tr x = Ok sq /\
    decode_utt amax scale true m l (map fst units) tr x = Ok (per_frame_units sq lss).
Proof.
  intros amax scale conf lines ul group wid l units tots k D skel st tr x xs sq c0 ls Ha Hcfg Hent Eb Hsz T Ex Fx Hne Ecs Eali Hsaid Hlen m.
  destruct (build_ok conf lines ul group wid Hcfg) as (l' & units' & tots' & c & g & E' & _ & Eg & Eo & Ec & En & Em & Hl & Ln & Nu & Pm & HU &
    Wg & Pg & S1 & S2 & S3 & S4 & Hdg & HL).
  rewrite Eb in E'. injection E' as <- <- <-.
  set (tr0 := cg_trans (to_cgraph c)).
  assert (U : utt_ok k D skel (lu_utt l tr0 x)).
  { apply (utt_spoken k D group ul skel l units tots c g Eg Eo Ec En Em Nu HU Wg Pg S1 S2 S3 S4 Hdg HL Hsz tr0 x); [auto|].
    exists xs. split; [exact Ex|]. split; [exact Fx|]. split; [exact Hne|]. rewrite Eali. exists sq, c0, ls. auto. }
  assert (Eu : forall tr, lu_utt l tr x = {| u_graph := to_cgraph c0; u_order := c_map c0; u_own := false; u_stats := lu_stats x |})
    by (intros tr'; unfold lu_utt; now rewrite Eali).
  destruct (decode_best amax k D skel st scale (lu_utt l tr0 x) Ha T U) as (best & E & B1 & B2 & B3). fold m in E, B2, B3.
  rewrite Eu in *. cbn [u_graph u_order u_stats] in *.
  destruct Hsaid as (hs & Hsq & Hac).
  assert (F2 : Forall2 (fun p h => sget p units = Ok h) sq hs).
  { clear - Hsq Nu. induction Hsq; constructor; auto. now apply sget_units. }
  assert (Fh : Forall (fun h => exists n, In (n, h) units) hs).
  { clear - Hsq. induction Hsq; constructor; eauto. }
  assert (Fu : Forall usable hs).
  { eapply Forall_impl; [|exact Fh]. intros h (n & Hn). now apply (HU n h). }
  assert (Fp : Forall all_positive hs).
  { eapply Forall_impl; [|exact Fh]. intros h (n & Hn). now apply (HU n h). }
  assert (Fr : Forall (fun h => ranked h /\ exits h) hs).
  { eapply Forall_impl; [|exact Fh]. intros h (n & Hn). destruct (HU n h Hn) as (_ & _ & A & B & _). auto. }
  destruct (ali_full units sq hs F2 Fu Fp) as (g1 & A1 & W1 & P1 & N1 & (s1 & e1 & Q1 & Q2 & Q3 & Q4) & R1).
  destruct (R1 Fr) as (R2 & X2).
  destruct (C66_language units sq hs) as (g2 & c2 & D1 & D2 & D3 & D4 & D5); auto.
  { intros h a Hh Ha'. exact (proj1 (Forall_forall _ _) Fp h Hh a Ha'). }
  assert (g2 = g1) by congruence. subst g2. assert (c2 = c0) by congruence. subst c2.
  set (path := map (fun s => nth s (c_map c0) 0%nat) best) in *.
  assert (Bn : path <> []).
  { apply in_paths in B1. destruct B1 as (B1 & _). intros Ep. apply (f_equal (@length nat)) in Ep. unfold path in Ep.
    rewrite map_length, B1, Ex, map_length in Ep. destruct xs; [congruence|discriminate]. }
  assert (Acc : cat_accepts hs path).
  { apply D4. apply (C155_exact g1 c0 s1 e1); auto.
    - intros i Hi. now apply (diag_lt_one g1).
    - eapply (score_accepts (to_cgraph c0) (c_map c0)); [|exact B3].
      unfold HMM_Spec.frames. rewrite map_length. exact B1. }
  destruct Acc as (lss & Hlss & Econ).
  assert (Rd : reads units sq lss path) by (exists hs; auto).
  destruct (decoded conf lines ul group wid l units tots Hcfg Hent Eb sq lss path Rd Bn) as (Z1 & Z2).
  assert (Edec : decode_path amax scale m l tr x = Ok path) by (unfold decode_path; rewrite Eu; exact E).
  exists best, lss. cbv zeta. fold path. split; [|split; [exact Edec|split; [exact Rd|unfold decode_utt; rewrite Edec; cbn [bindr]; auto]]].
  assert (Lf : length (HMM_Spec.frames scale (map (fun o => nth o (denote m) e0) (c_map c0)) (lu_stats x)) = length (lu_stats x))
    by (unfold HMM_Spec.frames; apply map_length).
  split; rewrite Lf; [exact B1|exact B2].
Qed.

(** ** After training *)
Lemma diag_start l e : loop_ok l -> In e (pl_ends l) -> ~ (In e (pl_ends l) /\ In e (pl_starts l)).
Proof. intros (_ & _ & Hd & _) He [_ H]. now apply (Hd e). Qed.

Lemma good_trans l tr (w : nat -> nat -> R) : loop_ok l -> (forall e, In e (pl_ends l) -> ex (cg_trans (pl_graph l) e e) < 1) ->
  same_else l (cg_trans (pl_graph l)) tr ->
  (forall i q, (i < length (pl_ends l))%nat -> (q < length (pl_starts l))%nat ->
    let e := nth i (pl_ends l) 0%nat in ex (tr e (nth q (pl_starts l) 0%nat)) = (1 - ex (tr e e)) * exp (w i q)) ->
  loop_trans l tr.
Proof.
  intros Hl Hlt Ho Ht. split; [exact Ho|]. intros i j Hi Hj.
  destruct (In_nth _ _ 0%nat Hi) as (a & La & Ea). destruct (In_nth _ _ 0%nat Hj) as (b & Lb & Eb).
  specialize (Ht a b La Lb). cbv zeta in Ht. rewrite Ea, Eb in Ht. apply fin_ex. rewrite Ht.
  rewrite (Ho i i) by now apply diag_start. apply Rmult_lt_0_compat; [|apply exp_pos]. specialize (Hlt i Hi). lra.
Qed.

Lemma ends_leave conf lines ul group wid l units tots : config_ok conf lines ul group ->
  build_loop conf lines group wid = Ok (l, units, tots) -> loop_ok l /\ forall e, In e (pl_ends l) -> ex (cg_trans (pl_graph l) e e) < 1.
Proof.
  intros H E. destruct (C178_loop conf lines ul group wid H) as (l' & units' & tots' & E' & _ & (Hl & _) & _ & En & _ & _ & _ & _ & Hd & _).
  rewrite E in E'. injection E' as <- <- <-. split; [exact Hl|]. intros e He. apply Hd.
  destruct Hl as (_ & _ & _ & _ & _ & B). specialize (B e He). lia.
Qed.

(** Whatever the number of rounds of training, and whatever the utterance, seen
    in training or not, decoding works. *)
Theorem C182_unigram_training : forall enum sort amax eps prior conc conf lines ul group wid k D scale ds skel st eg lrate xs jobss,
  config_ok conf lines ul group -> (forall g t, In (g, t) conf -> entered_once t /\ no_dead_end t) ->
  In prior unigram_priors -> match conc with Some c => 0 <= c | None => True end ->
  is_enum enum -> (forall counts, sorts_desc counts (sort counts)) -> 0 <= scale -> (0 < ds)%nat ->
  0 <= lrate <= 1 -> prior = Some "dirichlet"%string \/ lrate = 1 ->
  exists l lo units tots w, make_loop eps prior conc conf lines group wid = Ok (l, lo, units, tots) /\
    wpar_of (lo_weights lo) = Some w /\
    (size skel = list_sum tots -> typed k D st skel -> NoDup (params skel) -> ~ In wid (params skel) ->
     Forall (@NoDup nat) eg -> incl (concat eg) (params skel) ->
     Forall (spoken k D group ul units) xs -> xs <> [] -> Forall (shares xs) jobss ->
     forall n, (n <= length jobss)%nat ->
     exists s v, loop_rounds enum sort amax scale ds l skel wid eg lrate true xs (firstn n jobss) (pw_init l w st, None) = Ok (s, v) /\
       forall amax' scale' x, is_argmax amax' -> spoken k D group ul units x -> lu_ali x = None ->
         decodes amax' scale' group ul units l (inst (forms (pw_pars s)) skel) (pw_trans s) x).
Proof.
  intros enum sort amax eps prior conc conf lines ul group wid k D scale ds skel st eg lrate xs jobss H Hent Hpr Hconc He Hso Hs Hds Hlr Hr.
  destruct (C178_unigram_training enum sort amax eps prior conc conf lines ul group wid k D scale ds skel st eg lrate xs jobss H Hpr Hconc He Hso Hs Hds Hlr Hr)
    as (l & lo & units & tots & w & E1 & Ew & HT).
  exists l, lo, units, tots, w. split; [exact E1|]. split; [exact Ew|].
  intros Hsz T Hnd Hwid Hgn Hgi Hx Hne Hj n Hn.
  destruct (HT Hsz T Hnd Hwid Hgn Hgi Hx Hne Hj n n (conj (le_n n) Hn)) as (s & s' & v & v' & A & A' & G & _).
  rewrite A in A'. injection A' as <- <-. exists s, v. split; [exact A|]. intros amax' scale' x Ha Hsp Hali.
  assert (E2 := make_built _ _ _ _ _ _ _ _ _ _ _ E1). destruct G as (G1 & _ & (_ & G3)).
  destruct (ends_leave conf lines ul group wid l units tots H E2) as (Hl & Hlt).
  apply (C182_loop amax' scale' conf lines ul group wid l units tots k D); auto.
  apply (good_trans l _ (fun _ q => elog_weight (pw_weights s) q)); auto.
  - apply loop_rounds_else in A. cbn [fst] in A. intros i j Hij. rewrite A by exact Hij. now apply unigram_other.
  - intros i q Hi Hq. cbv zeta. apply G3; [now apply nth_In|exact Hq].
Qed.

Theorem C182_bigram_training : forall enum amax eps prior conc conf lines ul group wid k D scale ds skel st eg lrate xs jobss,
  config_ok conf lines ul group -> (forall g t, In (g, t) conf -> entered_once t /\ no_dead_end t) ->
  In prior bigram_priors -> match conc with Some c => 0 <= c | None => True end -> 0 <= eps ->
  is_enum enum -> 0 <= scale -> (0 < ds)%nat -> 0 <= lrate <= 1 ->
  exists l lo units tots b, make_loop eps prior conc conf lines group wid = Ok (l, lo, units, tots) /\
    bset_of (lo_weights lo) = Some b /\
    (size skel = list_sum tots -> typed k D st skel -> NoDup (params skel) -> ~ In wid (params skel) ->
     Forall (@NoDup nat) eg -> incl (concat eg) (params skel) ->
     Forall (fun x => lu_ali x = None /\ spoken k D group ul units x) xs -> xs <> [] -> Forall (shares xs) jobss ->
     forall n, (n <= length jobss)%nat ->
     exists s v, bg_rounds enum amax scale ds l skel wid eg lrate true xs (firstn n jobss) (bg_init l b st, None) = Ok (s, v) /\
       forall amax' scale' x, is_argmax amax' -> spoken k D group ul units x -> lu_ali x = None ->
         decodes amax' scale' group ul units l (inst (forms (bg_pars s)) skel) (bg_trans s) x).
Proof.
  intros enum amax eps prior conc conf lines ul group wid k D scale ds skel st eg lrate xs jobss H Hent Hpr Hconc Heps He Hs Hds Hlr.
  destruct (C178_bigram_training enum amax eps prior conc conf lines ul group wid k D scale ds skel st eg lrate xs jobss H Hpr Hconc Heps He Hs Hds Hlr)
    as (l & lo & units & tots & b & E1 & Ew & HT).
  exists l, lo, units, tots, b. split; [exact E1|]. split; [exact Ew|].
  intros Hsz T Hnd Hwid Hgn Hgi Hx Hne Hj n Hn.
  destruct (HT Hsz T Hnd Hwid Hgn Hgi Hx Hne Hj n n (conj (le_n n) Hn)) as (s & s' & v & v' & A & A' & G & _).
  rewrite A in A'. injection A' as <- <-. exists s, v. split; [exact A|]. intros amax' scale' x Ha Hsp Hali.
  assert (E2 := make_built _ _ _ _ _ _ _ _ _ _ _ E1). destruct G as (G1 & _ & (_ & G3)).
  destruct (ends_leave conf lines ul group wid l units tots H E2) as (Hl & Hlt).
  apply (C182_loop amax' scale' conf lines ul group wid l units tots k D); auto.
  apply (good_trans l _ (elog_used (length (pl_starts l)) (bg_set s))); auto.
  apply bg_rounds_else in A. cbn [fst] in A. intros i j Hij. rewrite A by exact Hij. now apply bigram_other.
Qed.

(** ** The units of the recipes *)
Lemma nonspeech_once : entered_once nonspeech_topology.
Proof.
  intros e w a He Ha E. assert (e = 1%nat) by (simpl in He; repeat (destruct He as [He|He]; [congruence|]); destruct He). subst e. clear He.
  simpl in Ha. repeat (destruct Ha as [<-|Ha]; [cbn [fst snd] in *; lia|]). destruct Ha.
Qed.

Lemma speech_once : entered_once speech_topology.
Proof.
  intros e w a He Ha E. assert (e = 1%nat) by (simpl in He; repeat (destruct He as [He|He]; [congruence|]); destruct He). subst e. clear He.
  simpl in Ha. repeat (destruct Ha as [<-|Ha]; [cbn [fst snd] in *; lia|]). destruct Ha.
Qed.

Lemma aud_entered g t : In (g, t) aud_conf -> entered_once t /\ no_dead_end t.
Proof.
  intros [Ht|[Ht|[]]]; injection Ht as <- <-.
  - split; [exact nonspeech_once|exact nonspeech_alive].
  - split; [exact speech_once|exact speech_alive].
Qed.

(** Acoustic unit discovery: after any number of rounds of training, every
    utterance of three frames or more is decoded. *)
Theorem C182_aud : forall enum sort amax eps conc ul group wid k D scale ds skel st eg xs jobss,
  aud_units ul group -> match conc with Some c => 0 <= c | None => True end ->
  is_enum enum -> (forall counts, sorts_desc counts (sort counts)) -> 0 <= scale -> (0 < ds)%nat ->
  exists l lo units tots w, make_loop eps None conc aud_conf (map (fun u => [fst u; snd u]) ul) group wid = Ok (l, lo, units, tots) /\
    wpar_of (lo_weights lo) = Some w /\
    (size skel = list_sum (map aud_states ul) -> typed k D st skel -> NoDup (params skel) -> ~ In wid (params skel) ->
     Forall (@NoDup nat) eg -> incl (concat eg) (params skel) ->
     let usable x := lu_ali x = None /\ exists ys, lu_stats x = map (suff k) ys /\ Forall (frame_ok k D) ys /\ (3 <= length ys)%nat in
     Forall usable xs -> xs <> [] -> Forall (shares xs) jobss ->
     forall n, (n <= length jobss)%nat ->
     exists s v, loop_rounds enum sort amax scale ds l skel wid eg 1 true xs (firstn n jobss) (pw_init l w st, None) = Ok (s, v) /\
       forall amax' scale' x, is_argmax amax' -> usable x ->
         decodes amax' scale' group ul units l (inst (forms (pw_pars s)) skel) (pw_trans s) x).
Proof.
  intros enum sort amax eps conc ul group wid k D scale ds skel st eg xs jobss Hu Hconc He Hso Hs Hds.
  assert (Hc := aud_config ul group Hu).
  destruct (C182_unigram_training enum sort amax eps None conc aud_conf _ ul group wid k D scale ds skel st eg 1 xs jobss Hc aud_entered)
    as (l & lo & units & tots & w & E1 & Ew & HT); auto.
  { simpl. tauto. }
  { lra. }
  assert (E2 := make_built _ _ _ _ _ _ _ _ _ _ _ E1).
  exists l, lo, units, tots, w. split; [exact E1|]. split; [exact Ew|].
  rewrite <- (C178_aud_size ul group wid l units tots Hu E2).
  intros Hsz T Hnd Hwid Hgn Hgi usable Hx Hne Hj n Hn.
  assert (Sp : forall x, usable x -> spoken k D group ul units x).
  { intros x (Xa & ys & Xs & Xf & Xl). apply (C178_aud_frames ul group wid k D x ys l units tots); auto. intros ->. simpl in Xl. lia. }
  destruct (HT Hsz T Hnd Hwid Hgn Hgi) with (n := n) as (s & v & A1 & A2); auto.
  { eapply Forall_impl; [|exact Hx]. exact Sp. }
  exists s, v. split; [exact A1|]. intros amax' scale' x Ha Hux. apply A2; auto. apply Hux.
Qed.

(** ** A unit that comes back to its first state *)
Definition again_topology : list (nat * nat * R) :=
  [(0%nat, 1%nat, 1); (1%nat, 2%nat, 1); (2%nat, 1%nat, 1 / 2); (2%nat, 3%nat, 1 / 2); (3%nat, 4%nat, 1)].

Lemma again_contiguous : contiguous again_topology 5.
Proof.
  intros s. split.
  - intros Hs. destruct s as [|[|[|[|[|s]]]]]; [eexists (0%nat, 1%nat, 1)|eexists (1%nat, 2%nat, 1)|eexists (2%nat, 3%nat, 1 / 2)|eexists (3%nat, 4%nat, 1)
      |eexists (3%nat, 4%nat, 1)|lia]; (split; [simpl; tauto|simpl; tauto]).
  - intros (a & Ha & E). simpl in Ha. repeat (destruct Ha as [<-|Ha]; [cbn [fst snd] in E; lia|]). destruct Ha.
Qed.

Lemma again_one_way : one_way again_topology 5.
Proof.
  split; [|split]; intros a Ha; simpl in Ha; repeat (destruct Ha as [<-|Ha]; [cbn [fst snd]; lia|]); destruct Ha.
Qed.

Lemma again_config : config_ok [("g"%string, again_topology)] [["a"; "g"]%string] [("a", "g")%string] None.
Proof.
  split; [|split; [reflexivity|split; [discriminate|split]]].
  - intros g t [E|[]]. injection E as <- <-. split.
    + intros a Ha. simpl in Ha. repeat (destruct Ha as [<-|Ha]; [cbn [snd]; lra|]). destruct Ha.
    + exists 5%nat, 1%nat, 3%nat. split; [exact again_contiguous|]. split; [exact again_one_way|]. split; [|split; [|lia]].
      * split; [lia|]. split; [exists 1; simpl; tauto|]. intros a Ha. simpl in Ha.
        repeat (destruct Ha as [<-|Ha]; [cbn [fst snd]; intros; lia|]). destruct Ha.
      * split; [lia|]. split; [exists 1; simpl; tauto|]. intros a Ha. simpl in Ha.
        repeat (destruct Ha as [<-|Ha]; [cbn [fst snd]; intros; lia|]). destruct Ha.
  - intros g [<-|[]]. exists "a"%string. now left.
  - split; [constructor; [intros []|constructor]|]. split; [intros u [<-|[]]; now left|].
    split; [intros u [<-|[]]; repeat split; discriminate|discriminate].
Qed.

Lemma again_long k a ls w z : walk (unit_of again_topology k 5) a ls w z -> z = 4%nat -> (3 <= length ls + a)%nat.
Proof.
  intros H Ez. induction H as [a|a c o ls w v b Ha Hs Hw IH]; [subst; simpl; lia|].
  destruct (unit_step again_topology k 5 1 3 ltac:(lia) again_one_way ltac:(lia) a c o v Ha Hs) as ((w0 & Hin) & _ & _ & ->). specialize (IH Ez). rewrite app_length.
  simpl in Hin. repeat (destruct Hin as [E|Hin]; [injection E; intros; subst; simpl; lia|]). destruct Hin.
Qed.

(** A unit whose first state can be entered again is written twice: the states
    0 1 0 1 2 are those of the unit "a" said once, and not those of "a a". *)
Theorem C182_reentry_refuted : exists conf lines ul l units tots path,
  config_ok conf lines ul None /\ build_loop conf lines None 0 = Ok (l, units, tots) /\
  reads units ["a"%string] [path] path /\
  bindr (state2phone path (start_pdf l) false) (fun ps => Ok (map (fun i => nth i (map fst units) ""%string) ps)) = Ok ["a"; "a"]%string /\
  forall lss, ~ reads units ["a"; "a"]%string lss path.
Proof.
  destruct (C178_loop _ _ _ _ 0%nat again_config) as (l & units & tots & E & _ & _ & Ls & _ & _ & Pm & _).
  destruct (build_units _ _ _ _ _ _ _ _ again_config E) as (B1 & _ & B3 & B4).
  assert (Lu := F2_len _ _ _ B1). rewrite Ls in Lu. cbn [length] in Lu. destruct units as [|[nm h] [|? ?]]; try discriminate Lu. clear Lu.
  destruct (B3 nm h (or_introl eq_refl)) as (gr & t & k & m & [En|[]] & [Et|[]] & _ & Hc & Eh). injection En as <- <-. injection Et as <-.
  assert (m = 5%nat) by (eapply contiguous_unique; [exact Hc|exact again_contiguous]). subst m h.
  destruct (pl_starts l) as [|p0 [|? ?]] eqn:Es; try discriminate Ls. inversion B1 as [|? ? ? ? Hb _]; subst. cbn [snd] in Hb.
  assert (k = 0%nat).
  { cbn [map concat snd] in B4. rewrite app_nil_r, mapping_pdfs in B4. simpl in B4. destruct (list_sum tots) as [|z]; [discriminate B4|].
    cbn [seq] in B4. injection B4. intros. lia. }
  subst k.
  assert (Hen : single_entry again_topology 5 1).
  { split; [lia|]. split; [exists 1; simpl; tauto|]. intros a Ha. simpl in Ha.
    repeat (destruct Ha as [<-|Ha]; [cbn [fst snd]; intros; lia|]). destruct Ha. }
  apply (unit_begins again_topology 0 5 1 3 ltac:(lia) again_one_way Hen ltac:(lia)) in Hb. cbn in Hb. subst p0.
  assert (Hacc : Gb_Spec.accepts (unit_of again_topology 0 5) [0; 1; 0; 1; 2]%nat).
  { change [0; 1; 0; 1; 2]%nat with (map (fun i => (0 + (i - 1))%nat) [1; 2; 1; 2; 3]%nat).
    apply unit_accepts; [lia|repeat constructor|]. simpl.
    repeat (split; [eexists; tauto|]). exact I. }
  eexists _, _, _, l, _, tots, [0; 1; 0; 1; 2]%nat. split; [exact again_config|]. split; [exact E|]. split; [|split].
  - exists [unit_of again_topology 0 5]. split; [constructor; [now left|constructor]|]. split; [constructor; [exact Hacc|constructor]|reflexivity].
  - unfold start_pdf. rewrite Es. reflexivity.
  - intros lss (hs & F1 & F2 & Ec). inversion F1 as [|? h1 ? hs1 I1 F1']; subst. inversion F1' as [|? h2 ? hs2 I2 F1'']; subst.
    inversion F1''; subst. inversion F2 as [|? l1 ? ls1 A1 F2']; subst. inversion F2' as [|? l2 ? ls2 A2 F2'']; subst. inversion F2''; subst.
    assert (Lg : forall h' ls, In ("a"%string, h') [("a"%string, unit_of again_topology 0 5)] -> Gb_Spec.accepts h' ls -> (3 <= length ls)%nat).
    { intros h' ls [Eh|[]] (w & s & f & o & ls' & Qs & Qe & Qi & Qw & ->). injection Eh as <-. simpl in Qs, Qe. injection Qs as <-. injection Qe as <-.
      apply again_long in Qw; [|reflexivity]. rewrite app_length. lia. }
    assert (M1 := Lg h1 l1 I1 A1). assert (M2 := Lg h2 l2 I2 A2). apply (f_equal (@length nat)) in Ec.
    cbn [concat] in Ec. rewrite !app_length in Ec. cbn [length] in Ec. lia.
Qed.

(** Three frames are silence, after one round of training: two units would need
    four frames at least. *)
Example C182_ex : forall enum sort amax, is_enum enum -> (forall counts, sorts_desc counts (sort counts)) -> is_argmax amax ->
  let xs := [ux_utt [0; 3; 5]; ux_utt [1; 1; 4; 4; 7]] in
  exists l lo units tots w s v,
    make_loop 1 None None aud_conf [["sil"; "non-speech-unit"]; ["au1"; "speech-unit"]]%string (Some "non-speech-unit"%string) 9 =
      Ok (l, lo, units, tots) /\ wpar_of (lo_weights lo) = Some w /\
    loop_rounds enum sort amax 1 8 l ux_skel 9 [[1]]%nat 1 true xs [[[0]; [1]]]%nat (pw_init l w ux_st, None) = Ok (s, v) /\
    forall f, length f = 3%nat ->
      decode_utt amax 1 false (inst (forms (pw_pars s)) ux_skel) l (map fst units) (pw_trans s) (ux_utt f) = Ok ["sil"%string] /\
      decode_utt amax 1 true (inst (forms (pw_pars s)) ux_skel) l (map fst units) (pw_trans s) (ux_utt f) = Ok ["sil"; "sil"; "sil"]%string.
Proof.
  intros enum sort amax He Hso Ha xs.
  destruct (C182_aud enum sort amax 1 None ux_units (Some "non-speech-unit"%string) 9 KDiag 1 1 8 ux_skel ux_st [[1]]%nat
    xs [[[0]; [1]]]%nat ux_aud I He Hso Rle_0_1 ltac:(lia)) as (l & lo & units & tots & w & E & Ew & HT).
  assert (Hg : Forall (@NoDup nat) [[1]]%nat).
  { constructor; [|constructor]. constructor; [intros []|constructor]. }
  assert (N : NoDup (params ux_skel)) by (constructor; [intros []|constructor]).
  assert (Hw : ~ In 9%nat (params ux_skel)) by (intros [H|[]]; discriminate).
  assert (Hj : Forall (shares xs) [[[0]; [1]]]%nat) by (constructor; [apply Permutation_refl|constructor]).
  assert (Us : forall f, (3 <= length f)%nat ->
    lu_ali (ux_utt f) = None /\ exists ys, lu_stats (ux_utt f) = map (suff KDiag) ys /\ Forall (frame_ok KDiag 1) ys /\ (3 <= length ys)%nat).
  { intros f Hf. split; [reflexivity|]. eexists. split; [apply ux_frames|]. split; [apply ux_frames|]. now rewrite map_length. }
  destruct (HT eq_refl ux_typed N Hw Hg (incl_refl _)) with (n := 1%nat) as (s & v & A & B); auto.
  { repeat (apply Forall_cons; [apply Us; simpl; lia|]). apply Forall_nil. }
  { discriminate. }
  exists l, lo, units, tots, w, s, v. split; [exact E|]. split; [exact Ew|]. split; [exact A|]. intros f Hf.
  destruct (B amax 1 (ux_utt f) Ha (Us f ltac:(lia))) as (path & sq & lss & _ & (M & _) & (_ & a & b & S1 & S2 & S3 & S4) & Rd & D1 & D2).
  assert (Ea : a = "sil"%string) by (destruct S3 as [S3|[S3|[]]]; congruence). subst a.
  apply in_paths in M. destruct M as (M & _). unfold HMM_Spec.frames in M. rewrite map_length in M.
  assert (Lp : length path = 3%nat) by (rewrite M; cbn [ux_utt lu_stats]; now rewrite map_length).
  assert (Hcfg := aud_config ux_units _ ux_aud). assert (Eb := make_built _ _ _ _ _ _ _ _ _ _ _ E).
  destruct Rd as (hs & F1 & F2 & Ep).
  assert (Two : forall n h ls, In (n, h) units -> Gb_Spec.accepts h ls -> (2 <= length ls)%nat).
  { intros n h ls Hin Hacc.
    destruct (units_are _ _ _ _ _ _ _ _ Hcfg aud_entered Eb n h Hin) as (t & k & m & e & x & H1 & H2 & H3 & H4 & H5 & H6 & H7 & _ & ->).
    destruct (unit_visit t k m e x H1 H3 H4 H5 H6 H7 ls Hacc) as (q & rest & -> & Hr & _).
    destruct rest; [contradiction|]. cbn [length]. rewrite app_length. cbn [length]. lia. }
  assert (Hs : sq = ["sil"%string] /\ exists ls, lss = [ls] /\ path = ls).
  { destruct sq as [|n1 [|n2 sq]]; [discriminate S1| |].
    - injection S1 as ->. inversion F1 as [|? h1 ? hs1 I1 F1']; subst. inversion F1'; subst.
      inversion F2 as [|? l1 ? ls1 A1 F2']; subst. inversion F2'; subst. split; [reflexivity|]. exists l1. split; [reflexivity|].
      cbn [concat]. apply app_nil_r.
    - exfalso. inversion F1 as [|? h1 ? hs1 I1 F1']; subst. inversion F1' as [|? h2 ? hs2 I2 F1'']; subst.
      inversion F2 as [|? l1 ? ls1 A1 F2']; subst. inversion F2' as [|? l2 ? ls2 A2 F2'']; subst.
      assert (M1 := Two _ _ _ I1 A1). assert (M2 := Two _ _ _ I2 A2). cbn [concat] in Lp. rewrite !app_length in Lp. lia. }
  destruct Hs as (-> & ls & -> & ->). split; [exact D1|]. rewrite D2. unfold per_frame_units. cbn [combine map concat fst snd app].
  rewrite Lp. reflexivity.
Qed.

Print Assumptions C182_loop.
Print Assumptions C182_alignment.
Print Assumptions C182_unigram_training.
Print Assumptions C182_bigram_training.
Print Assumptions C182_aud.
Print Assumptions C182_reentry_refuted.

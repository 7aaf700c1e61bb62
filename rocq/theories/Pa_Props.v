(** C155, C156: the language of compiled graphs, alignment graphs and forced
    alignments. *)
From Coq Require Import Reals String List Arith Bool Lra Lia.
From Verif Require Import Prelude Vec Set_Model Set_Spec HMM_Model HMM_Spec HMM_Proofs HMM_Props
  FB_Model FB_Spec FB_Viterbi Graph_Model Graph_Spec Graph_Proofs Graph_Eps Graph_Hist
  Graph_Lang Graph_Props Gb_Model Gb_Spec Gb_Lang Gb_Proofs Gb_Loop Gb_Props
  Pa_Model Pa_Spec Pa_Proofs Pa_Rank.
Import ListNotations.
Local Open Scope R_scope.

(** ** C155 *)

(** The label sequences of the paths of non-zero probability of the compiled
    graph are accepted by the graph. *)
Theorem C155_sound : forall g c s e ls, wf g -> all_positive g ->
  g_start g = Some s -> g_end g = Some e -> non_emitting g s -> non_emitting g e ->
  compile g = Ok c -> cg_accepts (to_cgraph c) (c_map c) ls -> accepts g ls.
Proof.
  intros g c s e ls W P Es Ee Ns Ne Ec (p & Hin & Hf & ->).
  apply (accepts_runs g s e _ W Es Ee Ns). apply in_paths in Hin. destruct Hin as [_ F].
  eapply path_sound; eauto. cbn [cg_n to_cgraph] in F. rewrite (c_n_eq g c s e) in F; auto.
Qed.

(** Conversely, when no state of the compiled graph keeps all its mass. *)
Theorem C155_exact : forall g c s e ls, wf g -> all_positive g ->
  g_start g = Some s -> g_end g = Some e -> non_emitting g s -> non_emitting g e ->
  compile g = Ok c -> (forall i, (i < c_n c)%nat -> Graph_Model.c_trans c i i < 1) -> ls <> [] ->
  (cg_accepts (to_cgraph c) (c_map c) ls <-> accepts g ls).
Proof.
  intros g c s e ls W P Es Ee Ns Ne Ec Hd Hne. split; [now apply (C155_sound g c s e)|].
  intros H. apply (accepts_runs g s e _ W Es Ee Ns) in H.
  assert (En : c_n c = length (emitting g)) by now apply (c_n_eq g c s e).
  destruct (path_complete g c s e W P Es Ee Ne Ec) with (ls := ls) (rows := map (fun _ : nat => (fun _ => Fin 0) : row) ls)
    as (p & L & F & E & Sc); auto.
  - intros i Hi. apply Hd. now rewrite En.
  - apply map_length.
  - apply Forall_forall. intros r Hr. apply in_map_iff in Hr. destruct Hr as (x & <- & _). discriminate.
  - exists p. split; [|split; [exact Sc|now symmetry]]. apply in_paths. split; auto.
    cbn [cg_n to_cgraph]. now rewrite En.
Qed.

(** In particular for normalised graphs which never go back to a non-emitting
    state and whose self-loops can be left. *)
Theorem C155_left_to_right : forall g c s e ls, wf g -> all_positive g -> normalised g ->
  ranked g -> exits g ->
  g_start g = Some s -> g_end g = Some e -> non_emitting g s -> non_emitting g e ->
  compile g = Ok c -> ls <> [] ->
  (cg_accepts (to_cgraph c) (c_map c) ls <-> accepts g ls).
Proof.
  intros. eapply C155_exact; eauto. intros i Hi. now apply (diag_lt_one g).
Qed.

(** In general the language can be lost: a normalised graph with positive
    weights, accepting [0; 1], whose compiled graph has no path at all: the
    weights of the two ways back to state 1 through non-emitting states are
    counted without the weights of the arcs 2 -> 3 and 2 -> 4 (C04), so that the
    diagonal is 1 and the arc to state 5 is erased by the normalisation. *)
Definition loop_graph : graph :=
  Graph 7 [(0, None); (1, Some 0); (2, None); (3, None); (4, None); (5, Some 1); (6, None)]%nat
    [Arc 0 1 1; Arc 1 2 (1/2); Arc 1 5 (1/2); Arc 2 3 (1/2); Arc 2 4 (1/2); Arc 3 1 1; Arc 4 1 1;
     Arc 5 6 1] (Some 0%nat) (Some 6%nat).

Lemma loop_graph_wf : wf loop_graph /\ all_positive loop_graph /\ normalised loop_graph.
Proof.
  split; [|split].
  - constructor.
    + unfold states. simpl. repeat constructor; simpl; intuition lia.
    + intros s Hs. unfold states in Hs. simpl in *. intuition lia.
    + intros a Ha. unfold states. simpl in *. decompose [or] Ha; try contradiction; subst a; simpl; auto 20.
    + unfold key. simpl. repeat constructor; simpl; intuition congruence.
  - intros a Ha. simpl in Ha. decompose [or] Ha; try contradiction; subst a; simpl; lra.
  - intros s Hs. unfold states in Hs. simpl in Hs. decompose [or] Hs; try contradiction; subst s;
      unfold sumf; simpl; try (right; lra).
    left. intros a Ha. decompose [or] Ha; try contradiction; subst a; simpl; lia.
Qed.

Theorem C155_ranking_needed : exists g c s e, wf g /\ all_positive g /\ normalised g /\
  g_start g = Some s /\ g_end g = Some e /\ non_emitting g s /\ non_emitting g e /\
  compile g = Ok c /\ accepts g [0; 1]%nat /\ forall ls, ~ cg_accepts (to_cgraph c) (c_map c) ls.
Proof.
  destruct loop_graph_wf as (W & P & N). destruct (compile_ok loop_graph W) as (c & Ec).
  exists loop_graph, c, 0%nat, 6%nat. repeat (split; [now auto|]).
  assert (Ns : non_emitting loop_graph 0) by (unfold non_emitting; simpl; auto).
  assert (Ne : non_emitting loop_graph 6) by (unfold non_emitting; simpl; auto 10).
  repeat (split; [now auto|]). split.
  { exists (1 * (1/2 * (1 * 1))), 0%nat, 6%nat, None, [0; 1]%nat. repeat split; auto.
    change [0; 1]%nat with (label (Some 0%nat) ++ (label (Some 1%nat) ++ (label None ++ []))).
    econstructor; [simpl; auto 10|simpl; auto 10|].
    econstructor; [simpl; auto 10|simpl; auto 10|].
    econstructor; [simpl; auto 10|simpl; auto 10|]. constructor. }
  destruct (compile_trans _ _ Ec) as (m & Hm & En & Et).
  assert (E00 : m 0%nat 0%nat = 1).
  { pose proof Hm as Hm'.
    cbv [raw_trans loop_graph g_arcs foldM acc_arc pdf_of a_start a_end a_weight lookup g_states
       Nat.eqb state2pdf emitting flat_map snd fst app index_of option_map bindr yields
       find_next_pdf_ids find_pdf_ids arcs_of out_arcs filter map rev explore dest mem existsb
       orb length plus] in Hm'.
    inversion Hm' as [Em]. unfold mat_add. simpl. lra. }
  assert (E01 : norm_rows 2 m 0%nat 1%nat <= 0).
  { unfold norm_rows, norm_row. rewrite E00. destruct (Rlt_dec 0 1); [|lra].
    assert (Em1 : 0 < m 0%nat 1%nat).
    { apply (trans_support loop_graph m 0 1 W P Hm). exists 1%nat, 5%nat. repeat split.
      exists 1%nat. repeat split; [constructor| |].
      - exists (Arc 1 5 (1/2)). simpl. auto 10.
      - exists 1%nat. simpl. auto 10. }
    destruct (Rlt_dec 0 (sumf (m 0%nat) (seq 0 2) - 1)) as [Ho|Ho].
    - simpl. unfold Rdiv. rewrite Rminus_diag_eq by reflexivity. lra.
    - exfalso. apply Ho. unfold sumf. simpl. lra. }
  intros ls (p & Hin & Hf & E). apply in_paths in Hin. destruct Hin as [L F].
  cbn [cg_n to_cgraph] in F. rewrite En in F. simpl in F.
  assert (Hinit : forall j, (j < 2)%nat -> cg_init (to_cgraph c) j <> NInf -> j = 0%nat).
  { intros j Hj H. destruct j as [|[|j]]; [auto| |lia]. exfalso.
    apply (init_iff loop_graph c 0 6 W P eq_refl eq_refl Ec 5 1 eq_refl) in H.
    destruct H as (x & H1 & (a & Ha & A1 & A2) & _).
    assert (Hx : x = 0%nat).
    { destruct (eps_reach_first _ _ _ _ H1) as [<-|(b & (a' & Ha' & B1 & B2) & Hb & _)]; auto. exfalso.
      simpl in Ha'. decompose [or] Ha'; try contradiction; subst a'; simpl in B1, B2; try lia. subst b.
      unfold non_emitting in Hb. simpl in Hb. decompose [or] Hb; try discriminate; contradiction. }
    rewrite Hx in A1. simpl in Ha. clear - Ha A1 A2.
    repeat (destruct Ha as [<-|Ha]; [simpl in A1, A2; discriminate|]). contradiction. }
  assert (Hfin : cg_final (to_cgraph c) 0 = NInf).
  { destruct (cg_final (to_cgraph c) 0) eqn:Ef; auto. exfalso.
    assert (H : cg_final (to_cgraph c) 0 <> NInf) by congruence.
    apply (fin_iff loop_graph c 0 6 W P eq_refl eq_refl Ne Ec 1 0 eq_refl) in H.
    assert (G : forall y, eps_reach true loop_graph 1 y -> In y [1; 2; 3; 4]%nat).
    { intros y Hy. induction Hy as [|y z Hy IH (a & Ha & A1 & A2) Hz]; [simpl; auto|].
      simpl in Ha. decompose [or] Ha; try contradiction; subst a; simpl in A1, A2; subst y z;
        simpl in IH |- *; try intuition lia.
      unfold non_emitting in Hz. simpl in Hz. decompose [or] Hz; try discriminate; contradiction. }
    apply G in H. simpl in H. intuition lia. }
  assert (Htail : forall rows p, Forall (fun j => (j < 2)%nat) p ->
      tail_score (to_cgraph c) 0 rows p = NInf).
  { induction rows as [|r rows IH]; intros q Fq; destruct q as [|j q]; simpl; auto.
    inversion_clear Fq as [|? ? Hj Fq']. destruct j as [|[|j]]; [|  |lia].
    - rewrite IH by auto. now destruct (lnp (Graph_Model.c_trans c 0 0)), (r 0%nat).
    - rewrite Et. change (Datatypes.length (emitting loop_graph)) with 2%nat. unfold lnp. destruct (Rlt_dec 0 (norm_rows 2 m 0%nat 1%nat)); [lra|].
      reflexivity. }
  destruct ls as [|l ls], p as [|j p]; simpl in Hf; try congruence.
  apply ladd_fin in Hf. destruct Hf as [Hf Ht]. apply ladd_fin in Hf. destruct Hf as [Hf _].
  inversion_clear F as [|? ? Hj F']. apply (Hinit j Hj) in Hf. subst j. now rewrite Htail in Ht.
Qed.

(** ** C156 *)
Section Forced.
  Variables (amax : nat -> (nat -> lp) -> nat) (m : mset).
  Hypothesis Hmax : is_argmax amax.
  Hypothesis Hm : Set_Spec.wf m.

  (** Every utterance with as many frames as some sequence accepted by its
      transcription is aligned to such a sequence. *)
  Theorem C156_forced_alignment : forall pg sq hs stats,
    Forall2 (fun p h => sget p pg = Ok h) sq hs -> Forall usable hs -> Forall all_positive hs ->
    Forall (fun h => ranked h /\ exits h) hs ->
    (forall o, In o (concat (map pdf_id_mapping hs)) -> (o < size m)%nat) ->
    stats <> [] -> (exists ls, length ls = length stats /\ cat_accepts hs ls) ->
    exists c ali, create_graph_from_seq sq pg = Ok c /\ align amax m c stats = Ok ali /\
      length ali = length stats /\ cat_accepts hs ali.
  Proof.
    intros pg sq hs stats F U P R Hp Hne (ls & Ll & Hls).
    destruct (C66_language pg sq hs F U) as (g & c & A & Ac & Ec & Hlang & Hmap).
    { intros h a Hh Ha. rewrite Forall_forall in P. eapply P; eauto. }
    destruct (ali_full pg sq hs F U P) as (g' & A' & W & Pg & N & (s & e & Es & Ee & Ns & Ne) & HR).
    assert (g' = g) by congruence. subst g'. destruct (HR R) as [Rg Eg].
    exists c.
    assert (Hlne : ls <> []) by (intros ->; destruct stats; [congruence|discriminate]).
    assert (Hr : runs g e s ls).
    { apply (accepts_runs g s e ls W Es Ee Ns). now apply Hlang. }

    destruct (vectors_some g c s e W Pg Es Ee Ne Ec ls Hlne Hr) as (u & v & Eu & Ev).
    assert (En : c_n c = length (emitting g)) by now apply (c_n_eq g c s e).
    assert (Em : c_map c = pdf_id_mapping g) by now apply (c_map_eq g c s e).
    assert (Lm : length (c_map c) = c_n c) by (rewrite Em, En; apply map_length).
    set (fr := frames 1 (map (fun o => nth o (denote m) e0) (c_map c)) stats).
    assert (Lfr : length fr = length ls) by (unfold fr; now rewrite frames_length).
    destruct (path_complete g c s e W Pg Es Ee Ne Ec) with (ls := ls) (rows := fr)
      as (p & Lp & Fp & _ & Sp); auto.
    { intros i Hi. apply (diag_lt_one g); auto. now rewrite En. }
    { apply Forall_forall. intros r Hr'. unfold fr, frames in Hr'. apply in_map_iff in Hr'.
      destruct Hr' as (x & <- & _). discriminate. }
    assert (Hpos : (0 < c_n c)%nat).
    { destruct p as [|i p]; [destruct ls; [congruence|discriminate]|].
      inversion_clear Fp as [|? ? Hi _]. rewrite En. lia. }
    destruct (C81_decode amax m (to_cgraph c) (c_map c) 1 stats Hmax Hm) as (b & Hb & Hin & Hopt); auto.
    { rewrite Hmap. exact Hp. }
    exists (map (fun i => nth i (c_map c) 0%nat) b). split; [exact Ac|]. split.
    { unfold align. rewrite Eu, Ev. exact Hb. }
    apply in_paths in Hin. destruct Hin as [Lb Fb]. split; [now rewrite map_length|].
    apply Hlang. apply (accepts_runs g s e _ W Es Ee Ns).
    cbn [cg_n to_cgraph] in *.
    apply (path_sound g c s e W Pg Es Ee Ne Ec) with (ls := fr); [now rewrite <- En|].
    specialize (Hopt p). fold fr in Hopt. intros Hc. rewrite Hc in Hopt.
    destruct (path_score (to_cgraph c) fr p) eqn:Ep; [congruence|].
    apply Hopt. apply in_paths. rewrite Lp, Ll. split; auto. now rewrite En.
  Qed.

  (** Otherwise a sequence is returned without any report: it cannot be one of
      the transcription. *)
  Theorem C156_too_short_refuted : forall pg sq hs stats,
    Forall2 (fun p h => sget p pg = Ok h) sq hs -> Forall usable hs -> Forall all_positive hs ->
    (forall o, In o (concat (map pdf_id_mapping hs)) -> (o < size m)%nat) -> stats <> [] ->
    (exists ls, ls <> [] /\ cat_accepts hs ls) ->
    (forall ls, length ls = length stats -> ~ cat_accepts hs ls) ->
    exists c ali, create_graph_from_seq sq pg = Ok c /\ align amax m c stats = Ok ali /\
      length ali = length stats /\ ~ cat_accepts hs ali.
  Proof.
    intros pg sq hs stats F U P Hp Hne (ls & Hlne & Hls) Hno.
    destruct (C66_language pg sq hs F U) as (g & c & A & Ac & Ec & Hlang & Hmap).
    { intros h a Hh Ha. rewrite Forall_forall in P. eapply P; eauto. }
    destruct (ali_full pg sq hs F U P) as (g' & A' & W & Pg & N & (s & e & Es & Ee & Ns & Ne) & _).
    assert (g' = g) by congruence. subst g'. exists c.
    assert (Hr : runs g e s ls).
    { apply (accepts_runs g s e ls W Es Ee Ns). now apply Hlang. }
    destruct (vectors_some g c s e W Pg Es Ee Ne Ec ls Hlne Hr) as (u & v & Eu & Ev).
    assert (En : c_n c = length (emitting g)) by now apply (c_n_eq g c s e).
    assert (Em : c_map c = pdf_id_mapping g) by now apply (c_map_eq g c s e).
    assert (Lm : length (c_map c) = c_n c) by (rewrite Em, En; apply map_length).
    assert (Hpos : (0 < c_n c)%nat).
    { inversion Hr as [|? t q ls' (x & _ & _ & Hem)]; subst; [congruence|].
      destruct (state2pdf_em g t Hem) as (j & _ & Hj). rewrite En. lia. }
    destruct (C81_decode amax m (to_cgraph c) (c_map c) 1 stats Hmax Hm) as (b & Hb & Hin & _); auto.
    { rewrite Hmap. exact Hp. }
    exists (map (fun i => nth i (c_map c) 0%nat) b). split; [exact Ac|]. split.
    { unfold align. rewrite Eu, Ev. exact Hb. }
    apply in_paths in Hin. destruct Hin as [Lb Fb].
    assert (L : length (map (fun i => nth i (c_map c) 0%nat) b) = length stats) by now rewrite map_length.
    split; [exact L|]. now apply Hno.
  Qed.
End Forced.

(** The units built from left-to-right topologies are as required. *)
Theorem C156_units : forall t n k, (2 <= n)%nat -> contiguous t n -> positive t -> one_way t n ->
  exists h, create_unit_graph t k = Ok (h, (k + (n - 2))%nat) /\
    usable h /\ all_positive h /\ ranked h /\ exits h.
Proof.
  intros t n k Hn Hc Hp Ho. exists (unit_of t k n). split; [now apply create_unit_graph_eq|].
  split; [now apply unit_of_usable|]. split; [now apply unit_of_pos|]. now apply unit_of_rank.
Qed.

(** ** The files *)
Definition with_phones (l : list string) : bool := Nat.leb 2 (length l).

Lemma sget_sset_same {A} k (v : A) d : sget k (sset k v d) = Ok v.
Proof.
  induction d as [|[k' v'] d IH]; simpl; [now rewrite String.eqb_refl|].
  destruct (String.eqb k k') eqn:E; simpl; rewrite E; auto.
Qed.
Lemma sget_sset_other {A} k k1 (v : A) d : k1 <> k -> sget k1 (sset k v d) = sget k1 d.
Proof.
  intros H. induction d as [|[k' v'] d IH]; simpl.
  - apply String.eqb_neq in H. now rewrite H.
  - destruct (String.eqb k k') eqn:E; simpl.
    + apply String.eqb_eq in E. subst k'. apply String.eqb_neq in H. now rewrite H.
    + destruct (String.eqb k1 k'); auto.
Qed.

Lemma mkali_spec pg : forall lines files n,
  (forall l, In l lines -> exists u ps c, l = u :: ps /\ create_graph_from_seq ps pg = Ok c) ->
  exists files', mkali true pg lines files n = (files', Ok (n + length (filter with_phones lines))%nat) /\
    forall u,
      (forall pre ps post c, lines = pre ++ (u :: ps) :: post -> ps <> [] ->
         (forall ps', In (u :: ps') post -> ps' = []) -> create_graph_from_seq ps pg = Ok c ->
         sget u files' = Ok c) /\
      ((forall ps, In (u :: ps) lines -> ps = []) -> sget u files' = sget u files).
Proof.
  induction lines as [|l lines IH]; intros files n H.
  - exists files. simpl. rewrite Nat.add_0_r. split; auto. intros u. split; auto.
    intros pre ps post c E. destruct pre; discriminate.
  - destruct (H l (or_introl eq_refl)) as (u0 & ps0 & c0 & -> & E0).
    assert (H' : forall l, In l lines -> exists u ps c, l = u :: ps /\ create_graph_from_seq ps pg = Ok c)
      by (intros; apply H; now right).
    destruct ps0 as [|p ps0].
    + destruct (IH files n H') as (f & E & Hf). exists f. split; [simpl; exact E|]. intros u.
      destruct (Hf u) as [H1 H2]. split.
      * intros pre ps post c El Hne Hpost Ec. destruct pre as [|l pre]; simpl in El; inversion El; subst; [congruence|].
        eapply H1; eauto.
      * intros Hall. apply H2. intros ps Hps. apply Hall. now right.
    + destruct (IH (sset u0 c0 files) (S n) H') as (f & E & Hf). exists f. split.
      * simpl mkali. rewrite E0. rewrite E. do 2 f_equal.
        assert (Ew : with_phones (u0 :: p :: ps0) = true) by reflexivity.
        cbn [filter]. rewrite Ew. simpl. lia.
      * intros u. destruct (Hf u) as [H1 H2]. split.
        -- intros pre ps post c El Hne Hpost Ec. destruct pre as [|l pre]; simpl in El; inversion El; subst.
           ++ rewrite H2 by auto. rewrite E0 in Ec. inversion Ec. subst. apply sget_sset_same.
           ++ eapply H1; eauto.
        -- intros Hall. assert (u <> u0). { intros ->. assert (p :: ps0 = []) by (apply Hall; now left). discriminate. }
           rewrite H2; [now apply sget_sset_other|]. intros ps Hps. apply Hall. now right.
Qed.

(** One file per utterance with a transcription, for its last line. *)
Theorem C156_files : forall pg lines,
  (forall l, In l lines -> exists u ps c, l = u :: ps /\ create_graph_from_seq ps pg = Ok c) ->
  exists files, mkaligraph pg lines = (files, Ok (length (filter with_phones lines))) /\
    forall u,
      (forall pre ps post c, lines = pre ++ (u :: ps) :: post -> ps <> [] ->
         (forall ps', In (u :: ps') post -> ps' = []) -> create_graph_from_seq ps pg = Ok c ->
         sget u files = Ok c) /\
      ((forall ps, In (u :: ps) lines -> ps = []) -> sget u files = Err KeyError).
Proof. intros pg lines H. apply (mkali_spec pg lines [] 0 H). Qed.

(** An unknown phone, or an empty line, stops the script: the files of the
    previous lines only are written. *)
Theorem C156_stops : forall pg pre l post,
  (forall l, In l pre -> exists u ps c, l = u :: ps /\ create_graph_from_seq ps pg = Ok c) ->
  let r := mkaligraph pg (pre ++ l :: post) in
  (l = [] -> r = (fst (mkaligraph pg pre), Err IndexError)) /\
  (forall u ps e, l = u :: ps -> ps <> [] -> create_graph_from_seq ps pg = Err e ->
     r = (fst (mkaligraph pg pre), Err e)).
Proof.
  intros pg pre l post H. cbv zeta. unfold mkaligraph. revert H. generalize (@nil (string * compiled)), 0%nat.
  induction pre as [|x pre IH]; intros files n H.
  - simpl. split.
    + intros ->. reflexivity.
    + intros u ps e -> Hne E. destruct ps as [|p ps]; [congruence|]. simpl. now rewrite E.
  - destruct (H x (or_introl eq_refl)) as (u0 & ps0 & c0 & -> & E0).
    assert (H' : forall l, In l pre -> exists u ps c, l = u :: ps /\ create_graph_from_seq ps pg = Ok c)
      by (intros; apply H; now right).
    destruct ps0 as [|p ps0]; cbn [app mkali]; [apply (IH files n H')|].
    cbn [andb]. rewrite E0. apply (IH _ _ H').
Qed.

(** prepare-alignments.py does not test the transcription: the graph written for
    an utterance without phones has no state, and cannot be used. *)
Theorem C156_empty_transcription_refuted : forall pg u,
  exists c, prepare_alignments pg [[u]] = ([(u, c)], Ok (Some c)) /\ c_n c = 0%nat /\
    forall amax m stats, exists e, align amax m c stats = Err e.
Proof.
  intros pg u.
  destruct (C66_language pg [] []) as (g & c & A & Ac & Ec & _ & Hm); try constructor.
  { intros h a []. }
  exists c. unfold prepare_alignments. cbn [mkali andb rev app]. rewrite Ac. cbn [mkali sset bindr].
  split; [reflexivity|].
  assert (En : c_n c = 0%nat).
  { destruct (compile_map g c Ec) as [E1 E2]. rewrite E2. rewrite Hm in E1. simpl in E1.
    unfold pdf_id_mapping in E1. destruct (emitting g); [reflexivity|discriminate]. }
  split; [exact En|]. intros amax m stats. exists OtherError. unfold align.
  pose proof Ec as H. unfold compile in H. destruct (raw_init g); [|discriminate]. cbn [bindr] in H.
  destruct (raw_final g); [|discriminate]. cbn [bindr] in H.
  destruct (raw_trans g); [|discriminate]. cbn [bindr] in H. inversion H as [Hc]. rewrite <- Hc in En. simpl in En.
  rewrite En. simpl. unfold norm_vec. simpl. unfold sumf at 1. simpl.
  destruct (Req_EM_T 0 0); [reflexivity|lra].
Qed.

(** Every utterance of the list is aligned on its own graph (the last alignment
    is kept), as long as the features and the graphs are there. *)
Theorem C156_align_loop : forall amax m own order gs feats utts,
  (forall u, In u utts -> exists ft c ali, sget u feats = Ok ft /\ sget u gs = Ok c /\
     align amax m c ft = Ok ali) ->
  exists out, align_loop amax m own order (Some gs) feats utts [] = (out, Ok tt) /\
    (forall u, In u utts -> exists ft c, sget u feats = Ok ft /\ sget u gs = Ok c /\
       sget u out = align amax m c ft) /\
    (forall u, ~ In u utts -> sget u out = Err KeyError).
Proof.
  intros amax m own order gs feats utts H.
  assert (G : forall out0,
    exists out, align_loop amax m own order (Some gs) feats utts out0 = (out, Ok tt) /\
    (forall u, In u utts -> exists ft c, sget u feats = Ok ft /\ sget u gs = Ok c /\
       sget u out = align amax m c ft) /\
    (forall u, ~ In u utts -> sget u out = sget u out0)).
  { induction utts as [|x utts IH]; intros out0; [exists out0; simpl; repeat split; auto; tauto|].
    destruct (H x (or_introl eq_refl)) as (ft & c & ali & E1 & E2 & E3).
    destruct (IH (fun u Hu => H u (or_intror Hu)) (sset x ali out0)) as (out & E & H1 & H2).
    exists out. split; [|split].
    - cbn [align_loop]. rewrite E1. cbn [bindr]. rewrite E2. cbn [bindr]. rewrite E3. exact E.
    - intros u [<-|Hu]; [|auto]. destruct (in_dec string_dec x utts) as [Hi|Hi]; [auto|].
      exists ft, c. repeat split; auto. rewrite H2 by auto. rewrite sget_sset_same. auto.
    - intros u Hu. rewrite H2 by (intros Hc; apply Hu; now right). apply sget_sset_other.
      intros ->. apply Hu. now left. }
  apply (G []).
Qed.

Theorem C156_missing_features : forall amax m own order graphs feats u post,
  sget u feats = Err KeyError ->
  align_loop amax m own order graphs feats (u :: post) [] = ([], Err KeyError).
Proof. intros. cbn [align_loop]. now rewrite H. Qed.

(** Two units: "sil" of two states and "a" of one.  Three frames give an
    alignment through the three states, two frames are too few. *)
Definition one_state : list (nat * nat * R) :=
  [(0%nat, 1%nat, 1); (1%nat, 1%nat, 1/2); (1%nat, 2%nat, 1/2)].
Definition two_states : list (nat * nat * R) :=
  [(0%nat, 1%nat, 1); (1%nat, 1%nat, 1/2); (1%nat, 2%nat, 1/2); (2%nat, 2%nat, 1/2); (2%nat, 3%nat, 1/2)].

Lemma one_state_ok : contiguous one_state 3 /\ positive one_state /\ one_way one_state 3.
Proof.
  split; [|split].
  - intros s. split.
    + intros Hs. destruct s as [|[|[|s]]]; [| | |lia].
      * exists (0%nat, 1%nat, 1). simpl. auto.
      * exists (0%nat, 1%nat, 1). simpl. auto.
      * exists (1%nat, 2%nat, 1/2). simpl. auto.
    + intros (a & Ha & E). simpl in Ha. decompose [or] Ha; try contradiction; subst a; simpl in E; lia.
  - intros a Ha. simpl in Ha. decompose [or] Ha; try contradiction; subst a; simpl; lra.
  - repeat split; intros a Ha; simpl in Ha; decompose [or] Ha; try contradiction; subst a; simpl; try lia.
    intros _. exists (1%nat, 2%nat, 1/2). simpl. auto.
Qed.

Lemma two_states_ok : contiguous two_states 4 /\ positive two_states /\ one_way two_states 4.
Proof.
  split; [|split].
  - intros s. split.
    + intros Hs. destruct s as [|[|[|[|s]]]]; [| | | |lia].
      * exists (0%nat, 1%nat, 1). simpl. auto.
      * exists (0%nat, 1%nat, 1). simpl. auto.
      * exists (1%nat, 2%nat, 1/2). simpl. auto.
      * exists (2%nat, 3%nat, 1/2). simpl. auto 10.
    + intros (a & Ha & E). simpl in Ha. decompose [or] Ha; try contradiction; subst a; simpl in E; lia.
  - intros a Ha. simpl in Ha. decompose [or] Ha; try contradiction; subst a; simpl; lra.
  - repeat split; intros a Ha; simpl in Ha; decompose [or] Ha; try contradiction; subst a; simpl; try lia; intros _.
    + exists (1%nat, 2%nat, 1/2). simpl. auto.
    + exists (2%nat, 3%nat, 1/2). simpl. auto 10.
Qed.

Example ex_C156 :
  let pg := [("sil", unit_of two_states 0 4); ("a", unit_of one_state 2 3)]%string in
  exists c ali, create_graph_from_seq ["sil"; "a"]%string pg = Ok c /\
    align first_max (Leaf 0 1 [[0]; [1]; [2]] 0) c [[3]; [1]; [2]] = Ok ali /\
    length ali = 3%nat /\ cat_accepts [unit_of two_states 0 4; unit_of one_state 2 3] ali.
Proof.
  cbv zeta. destruct one_state_ok as (C1 & P1 & O1). destruct two_states_ok as (C2 & P2 & O2).
  apply C156_forced_alignment.
  - apply first_max_is_argmax.
  - simpl. auto.
  - repeat constructor.
  - repeat (apply Forall_cons); [| |constructor]; apply unit_of_usable; auto; lia.
  - repeat (apply Forall_cons); [| |constructor]; now apply unit_of_pos.
  - repeat (apply Forall_cons); [| |constructor]; apply unit_of_rank; auto; lia.
  - intros o Ho. simpl in Ho. simpl. intuition lia.
  - discriminate.
  - exists [0; 1; 2]%nat. split; [reflexivity|]. exists [[0; 1]; [2]]%nat. split; [|reflexivity].
    constructor; [|constructor; [|constructor]].
    + exists (1 * (1/2 * (1/2 * 1))), 0%nat, 3%nat, None, [0; 1]%nat. repeat split; [simpl; auto|].
      change [0; 1]%nat with (label (Some 0%nat) ++ (label (Some 1%nat) ++ (label None ++ []))).
      econstructor; [simpl; unfold triple_arc; simpl; auto 10|simpl; auto 10|].
      econstructor; [simpl; unfold triple_arc; simpl; auto 10|simpl; auto 10|].
      econstructor; [simpl; unfold triple_arc; simpl; auto 10|simpl; auto 10|]. constructor.
    + exists (1 * (1/2 * 1)), 0%nat, 2%nat, None, [2]%nat. repeat split; [simpl; auto|].
      change [2]%nat with (label (Some 2%nat) ++ (label None ++ [])).
      econstructor; [simpl; unfold triple_arc; simpl; auto 10|simpl; auto 10|].
      econstructor; [simpl; unfold triple_arc; simpl; auto 10|simpl; auto 10|]. constructor.
Qed.

(** One frame for a unit of two states. *)
Example ex_C156_too_short :
  exists c ali, create_graph_from_seq ["sil"]%string [("sil", unit_of two_states 0 4)]%string = Ok c /\
    align first_max (Leaf 0 1 [[0]; [1]] 0) c [[3]] = Ok ali /\
    length ali = 1%nat /\ ~ cat_accepts [unit_of two_states 0 4] ali.
Proof.
  destruct two_states_ok as (C2 & P2 & O2).
  apply C156_too_short_refuted.
  - apply first_max_is_argmax.
  - simpl. auto.
  - repeat constructor.
  - repeat (apply Forall_cons); [|constructor]. apply unit_of_usable; auto; lia.
  - repeat (apply Forall_cons); [|constructor]. now apply unit_of_pos.
  - intros o Ho. simpl in Ho. simpl. intuition lia.
  - discriminate.
  - exists [0; 1]%nat. split; [discriminate|]. exists [[0; 1]]%nat. split; [|reflexivity].
    constructor; [|constructor].
    exists (1 * (1/2 * (1/2 * 1))), 0%nat, 3%nat, None, [0; 1]%nat. repeat split; [simpl; auto|].
    change [0; 1]%nat with (label (Some 0%nat) ++ (label (Some 1%nat) ++ (label None ++ []))).
    econstructor; [simpl; unfold triple_arc; simpl; auto 10|simpl; auto 10|].
    econstructor; [simpl; unfold triple_arc; simpl; auto 10|simpl; auto 10|].
    econstructor; [simpl; unfold triple_arc; simpl; auto 10|simpl; auto 10|]. constructor.
  - intros ls L (lss & F & ->). inversion F as [|? l ? lss' Ha Hn E1 E2]. inversion Hn. subst lss' lss.
    cbn [concat] in L. rewrite app_nil_r in L. destruct Ha as (w & s & e & o & l' & Es & Ee & Ho & Hw & ->).
    simpl in Es, Ee. inversion Es. inversion Ee. subst s e.
    assert (G : forall a ls w b, walk (unit_of two_states 0 4) a ls w b -> b = 3%nat -> (2 - a <= length ls)%nat).
    { intros a ls w0 b Hk. induction Hk as [a|a c o0 ls w1 v b Hi Hs Hk IH]; intros Eb; [subst; lia|].
      specialize (IH Eb). rewrite app_length. simpl in Hi. unfold triple_arc in Hi. simpl in Hi.
      simpl in Hs. decompose [or] Hi; try contradiction; match goal with H : Arc _ _ _ = Arc _ _ _ |- _ => inversion H end;
        subst; decompose [or] Hs; try contradiction;
        match goal with H : (_, _) = (_, _) |- _ => inversion H end; subst; simpl; lia. }
    apply G in Hw; [|reflexivity]. rewrite app_length in L. simpl in L. lia.
Qed.

Print Assumptions C155_sound.
Print Assumptions C155_exact.
Print Assumptions C155_left_to_right.
Print Assumptions C155_ranking_needed.
Print Assumptions C156_forced_alignment.
Print Assumptions C156_too_short_refuted.
Print Assumptions C156_units.
Print Assumptions C156_files.
Print Assumptions C156_stops.
Print Assumptions C156_empty_transcription_refuted.
Print Assumptions C156_align_loop.
Print Assumptions C156_missing_features.

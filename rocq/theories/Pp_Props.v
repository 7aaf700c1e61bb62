(** C185: posteriors of the units of a phone-loop. *)
From Coq Require Import Reals String List Arith Bool Lia Lra Permutation ZArith.
From Verif Require Import Prelude Vec Edit_Model Edit_Proofs Dec_Model Dec_Spec Dec_Proofs Opt_Model Opt_Spec Opt_Proofs Opt_Pipe.
From Verif Require Import FB_Model FB_Spec FB_Proofs FB_Viterbi Graph_Model Graph_Spec Graph_Proofs Graph_Eps Graph_Hist
  Graph_Lang Graph_Props Gb_Model Gb_Spec Gb_Lang Gb_Proofs Gb_Loop Gb_Props Cl_Props Pa_Model Pa_Spec Pa_Proofs Pa_Rank Pa_Props.
From Verif Require Import Gibbs Lgamma Set_Model Set_Spec Set_Index Set_Proofs
  HMM_Model HMM_Spec HMM_Proofs HMM_Props Dist_Model Dist_Spec Dist_Proofs Mat NW_Model NW_Spec
  SB_Model SB_Spec Sk_Model Sk_Spec Df_Model Pl_Model
  Vt_Model Vt_Spec Vt_Proofs Vt_Props Vl_Model Vl_Spec Vl_Proofs Vl_Props Mx_Model Mx_Spec Mx_Proofs Mx_Props
  Pw_Model Pw_Spec Pw_Proofs Pw_Props Bg_Model Bg_Spec Bg_Proofs Bg_Props
  Dt_Model Dt_Spec Dt_Proofs Dt_Props Dl_Model Dl_Spec Dl_Proofs Dl_Props Db_Model Db_Proofs Db_Props Rp_Graph Rp_Model Rp_Spec Rp_Proofs Rp_Start
  Rp_Props De_Model De_Spec De_Proofs De_Props Na_Spec Na_Proofs Na_Props Pp_Model Pp_Spec Pp_Proofs.
Import ListNotations.
Local Open Scope R_scope.

Lemma F2_choose {A B} (P : A -> B -> Prop) la : Forall (fun a => exists b, P a b) la -> exists lb, Forall2 P la lb.
Proof.
  induction 1 as [|a la (b & H) F (lb & IH)]; [exists []; constructor|]. exists (b :: lb). now constructor.
Qed.

Lemma F2_fun {A B C} (P : A -> B -> Prop) (Q : A -> C -> Prop) (f : C -> B) la lb : Forall2 P la lb -> forall lc, Forall2 Q la lc ->
  (forall a b c, In a la -> P a b -> Q a c -> b = f c) -> lb = map f lc.
Proof.
  induction 1 as [|a b la lb H F IH]; intros lc G Hf; inversion G as [|? c ? lc' G1 G2]; subst; [reflexivity|].
  cbn [map]. f_equal; [apply (Hf a b c); auto; now left|]. apply IH; auto. intros a' b' c' Ha. apply Hf. now right.
Qed.

Lemma last_app2 {A} (d : A) a b : b <> [] -> List.last (a ++ b) d = List.last b d.
Proof.
  intros H. induction a as [|x a IH]; [reflexivity|]. cbn [app]. destruct (a ++ b) eqn:E; [|exact IH].
  apply app_eq_nil in E. now destruct E.
Qed.

(** The names of the units, their states and their rank *)
Definition spans (u : string * graph) (kl : nat * nat) : Prop :=
  exists t, snd u = unit_of t (fst kl) (snd kl + 2) /\ one_way t (snd kl + 2) /\ single_exit t (snd kl + 2) (snd kl) /\ (2 <= snd kl)%nat.

Section Loop.
  Variables (conf : list (string * list (nat * nat * R))) (lines : list (list string)) (ul : list (string * string))
    (group : option string) (wid : nat) (l : ploop) (units : list (string * graph)) (tots : list nat).
  Hypothesis Hcfg : config_ok conf lines ul group.
  Hypothesis Hstr : forall g t, In (g, t) conf -> straight t.
  Hypothesis Hent : forall g t, In (g, t) conf -> entered_once t /\ no_dead_end t.
  Hypothesis Eb : build_loop conf lines group wid = Ok (l, units, tots).

  Lemma spans_are : exists us, Forall2 spans units us /\ pl_starts l = map fst us /\ pl_ends l = map (fun u => (fst u + snd u - 1)%nat) us /\
    concat (map (fun u => seq (fst u) (snd u)) us) = seq 0 (list_sum tots) /\ Forall (fun u => (2 <= snd u)%nat) us.
  Proof using Hcfg Hstr Eb.
    destruct (build_units conf lines ul group wid l units tots Hcfg Eb) as (B1 & B2 & Hun & B4).
    destruct (F2_choose (fun u kl => spans u kl /\ (forall p, begins (snd u) p -> p = fst kl) /\
       (forall p, finishes (snd u) p -> p = (fst kl + snd kl - 1)%nat) /\ pdf_id_mapping (snd u) = seq (fst kl) (snd kl)) units) as (us & F).
    { apply Forall_forall. intros [nm h] Hin. destruct (Hun nm h Hin) as (gr & t & k & m & _ & Ht & Hm & Hc & ->).
      destruct (proj1 Hcfg gr t Ht) as (_ & m' & e & x & Hc' & Ho & Hen & Hex & Hne).
      assert (m' = m) by (eapply contiguous_unique; eauto). subst m'.
      destruct (Hstr gr t Ht) as (n & Hc2 & He1 & Hx1). assert (n = m) by (eapply contiguous_unique; eauto). subst n. clear Hc' Hc2.
      assert (e = 1%nat). { destruct Hen as (_ & (w & Hw) & _). destruct He1 as (_ & _ & Hall). exact (Hall _ Hw eq_refl). }
      assert (x = (m - 2)%nat). { destruct Hex as (_ & (w & Hw) & _). destruct Hx1 as (_ & _ & Hall). exact (Hall _ Hw eq_refl). }
      subst e x. assert (Hm4 : (4 <= m)%nat) by (destruct Hex as (Hr & _); lia).
      exists (k, (m - 2)%nat). cbn [fst snd]. replace (m - 2 + 2)%nat with m by lia. split; [|split; [|split]].
      - exists t. cbn [fst snd]. replace (m - 2 + 2)%nat with m by lia. repeat (split; [assumption||reflexivity|]). lia.
      - intros p Hp. rewrite (unit_begins t k m 1 (m - 2) ltac:(lia) Ho Hen Hne p Hp). lia.
      - intros p Hp. rewrite (unit_finishes t k m 1 (m - 2) ltac:(lia) Hex Hne p Hp). lia.
      - rewrite mapping_pdfs. cbn [unit_of g_states]. apply unit_sts_pdfs. lia. }
    exists us. split; [|split; [|split; [|split]]].
    - clear - F. induction F as [|? ? ? ? H]; constructor; auto. apply H.
    - eapply F2_fun; [exact B1|exact F|]. cbn beta. intros a b c _ Hb (_ & H & _). now apply H.
    - eapply F2_fun; [exact B2|exact F|]. cbn beta. intros a b c _ Hb (_ & _ & H & _). now apply H.
    - rewrite <- B4. f_equal. clear - F. induction F as [|? ? ? ? H]; [reflexivity|]. cbn [map]. f_equal; [symmetry; apply H|assumption].
    - clear - F. induction F as [|? ? ? ? H]; constructor; auto. destruct H as ((t & _ & _ & _ & H) & _). exact H.
  Qed.

  Lemma last_state : forall sq lss p, reads units sq lss p -> p <> [] -> In (List.last p 0%nat) (pl_ends l).
  Proof using Hcfg Hstr Eb.
    destruct spans_are as (us & F & _ & Ee & _). intros sq lss p (hs & Hsq & Hac & ->). revert sq Hsq.
    induction Hac as [|h ls hs lss H Hac IH]; intros sq Hsq Hne; [now destruct Hne|]. inversion Hsq as [|nm ? sq' ? Hin Hsq']; subst.
    cbn [concat] in *. destruct (concat lss) as [|y r] eqn:Ec.
    - rewrite app_nil_r in *. destruct (In_nth_error _ _ Hin) as (i & Hi). destruct (Forall2_nth_error _ _ _ F i _ Hi) as (kl & Hkl & Sp).
      destruct Sp as (t & Eu & Ho & Hx & Hlen). cbn [snd] in Eu. subst h.
      destruct (unit_last t (fst kl) (snd kl + 2) (snd kl) ltac:(lia) Ho Hx ls H) as (_ & ->).
      rewrite Ee. apply in_map_iff. exists kl. split; [lia|]. eapply nth_error_In; eauto.
    - rewrite last_app2 by discriminate. apply (IH sq' Hsq'). discriminate.
  Qed.

  (** A path which is possible ends in the last state of a unit. *)
  Lemma path_end k D skel st tr x rows p : size skel = list_sum tots -> typed k D st skel -> loop_trans l tr ->
    spoken k D group ul units x -> lu_ali x = None -> length rows = length (lu_stats x) ->
    In p (paths (cg_n (with_trans (pl_graph l) tr)) (length rows)) -> path_prob (with_trans (pl_graph l) tr) rows p <> 0 ->
    In (nth (pred (length rows)) p 0%nat) (pl_ends l).
  Proof using Hcfg Hstr Hent Eb.
    intros Hsz T (T1 & T2) Hx Hali Lr Hp Hpr.
    destruct (build_ok conf lines ul group wid Hcfg) as (l' & units' & tots' & c & g & E' & _ & Eg & Eo & Ec & En & Em & Hl & Ln & Nu & Pm & HU &
      Wg & Pg & S1 & S2 & S3 & S4 & Hdg & HL).
    rewrite Eb in E'. injection E' as <- <- <-.
    assert (Eor : pl_order l = seq 0 (list_sum tots)) by (rewrite Eo, Em, En; reflexivity).
    assert (Ecg : cg_n (with_trans (pl_graph l) tr) = list_sum tots) by (cbn [with_trans cg_n]; rewrite Eg; exact En).
    destruct Hx as (xs & Ex & Fx & Hne & Hsay). rewrite Hali in Hsay. destruct Hsay as (ls0 & Hsay & Hlen).
    assert (Hls0 : ls0 <> []) by (destruct ls0; [destruct xs; [congruence|discriminate]|discriminate]).
    assert (Fb : Forall (fun i => (i < list_sum tots)%nat) p) by (apply in_paths in Hp; rewrite <- Ecg; apply Hp).
    assert (Epath : map (fun s => nth s (pl_order l) 0%nat) p = p) by (rewrite Eor; now apply seq_labels).
    assert (Lp : length p = length rows) by (apply in_paths in Hp; apply Hp).
    assert (Pn : p <> []).
    { intros ->. rewrite Lr, Ex in Lp. destruct xs; [congruence|discriminate]. }
    assert (Hsc : path_score (with_trans (pl_graph l) tr) rows p <> NInf).
    { apply fin_ex. rewrite ex_path_score. assert (0 <= path_prob (with_trans (pl_graph l) tr) rows p) by apply path_prob_nonneg. lra. }
    assert (Say : sayable group ul units p).
    { apply HL. apply (C155_exact g c 0%nat 1%nat); auto. rewrite <- Eg, <- Eo.
      assert (Acc := score_accepts (pl_graph l) (pl_order l) rows p). rewrite Epath in Acc. apply Acc; [exact Hp|].
      apply (path_keep (with_trans (pl_graph l) tr) (pl_graph l)); [reflexivity|reflexivity| |exact Hsc].
      cbn [with_trans cg_trans]. intros i j Hij. destruct (in_dec Nat.eq_dec i (pl_ends l)) as [Hi|Hi]; [|rewrite T1 in Hij by tauto; exact Hij].
      destruct (in_dec Nat.eq_dec j (pl_starts l)) as [Hj|Hj]; [|rewrite T1 in Hij by tauto; exact Hij].
      now apply (loop_links conf lines ul group wid l units tots Hcfg Hent Eb ls0). }
    destruct Say as (sq & Hsq & hs & Hhs & lss & Hlss & Econ).
    assert (Hl' : In (List.last p 0%nat) (pl_ends l)).
    { apply (last_state sq lss); [|exact Pn]. exists hs. auto. }
    rewrite <- Lp. rewrite last_nth in Hl'. exact Hl'.
  Qed.

  Lemma reorder_own skel st k D : size skel = list_sum tots -> typed k D st skel ->
    let m := inst (forms st) skel in
    Set_Spec.wf m /\ (forall o, In o (pl_order l) -> (o < size m)%nat) /\ Set_Index.reorder (denote m) (pl_order l) = denote m /\
    pl_order l = seq 0 (list_sum tots) /\ cg_n (pl_graph l) = list_sum tots.
  Proof using Hcfg Eb.
    intros Hsz T m. destruct (C178_loop conf lines ul group wid Hcfg) as (l' & units' & tots' & E' & _ & _ & _ & En & Eo & _).
    rewrite Eb in E'. injection E' as <- <- <-.
    assert (Ld : length (denote m) = size skel) by (rewrite denote_length; unfold m; now apply (inst_size k D)).
    split; [now apply (inst_wf k D)|]. split; [|split; [|auto]].
    - intros o Ho. unfold m. rewrite (inst_size k D) by exact T. rewrite Eo in Ho. apply in_seq in Ho. lia.
    - rewrite Eo, <- Hsz, <- Ld. unfold Set_Index.reorder. clear. apply (nth_ext _ _ e0 e0); [now rewrite map_length, seq_length|].
      intros i Hi. rewrite map_length, seq_length in Hi. rewrite (map_nth_lt _ _ _ 0%nat) by (now rewrite seq_length). now rewrite seq_nth.
  Qed.

  Lemma row_num starts ends r : state2phone_row starts ends (map Num r) =
    map Num (map (fun se : nat * nat => rsum (Dec_Model.slice r (fst se) (snd se))) (combine starts ends)).
  Proof using. unfold state2phone_row. rewrite map_map. apply map_ext. intros [a b]. cbn [fst snd]. now rewrite slice_map, nsum_num. Qed.

  Lemma nlogs (P : list (list R)) : Forall (Forall (fun p => 0 <= p)) P ->
    map (map nlog) (map (map Num) P) = map (map (fun p => Num (ln (1 / 100000 + p)))) P.
  Proof using.
    intros F. rewrite map_map. apply map_ext_in. intros r Hr. rewrite map_map. apply map_ext_in. intros p Hp.
    assert (Q := proj1 (Forall_forall _ _) F r Hr). assert (Q' := proj1 (Forall_forall _ _) Q p Hp). cbn beta in Q'.
    cbn [nlog]. unfold EPS. destruct (Rlt_dec 0 (1 / 100000 + p)); [reflexivity|lra].
  Qed.

  Lemma all_posts amax scale k D skel st tr x : size skel = list_sum tots -> typed k D st skel -> loop_trans l tr ->
    spoken k D group ul units x -> lu_ali x = None ->
    let m := inst (forms st) skel in
    let g := with_trans (pl_graph l) tr in
    let rows := HMM_Spec.frames 1 (denote m) (map (vscale scale) (lu_stats x)) in
    exists P U, state_posts g rows P /\ unit_posts units (pl_ends l) g rows U /\ List.last U [] = repeat 0 (length units) /\
      forall state log, posteriors_utt amax scale state log m l tr (lu_stats x) =
        Ok (map (map (fun p => Num (if log then ln (1 / 100000 + p) else p))) (if state then P else U)).
  Proof using Hcfg Hstr Hent Eb.
    intros Hsz T Htr Hx Hali m g rows.
    destruct (reorder_own skel st k D Hsz T) as (Hw & Ho & Er & Eor & En). fold m in Hw, Ho, Er.
    destruct spans_are as (us & Sp & Es & Ee & Econ & Hlen).
    assert (Eg : cg_n g = list_sum tots) by exact En.
    assert (Hn : length (pl_order l) = cg_n g) by (rewrite Eor, seq_length, Eg; reflexivity).
    assert (Hst : lu_stats x <> []).
    { destruct Hx as (xs & -> & _ & Hne & _). destruct xs; [congruence|discriminate]. }
    assert (Er' : HMM_Spec.frames 1 (Set_Index.reorder (denote m) (pl_order l)) (map (vscale scale) (lu_stats x)) = rows) by (now rewrite Er).
    destruct (posts_are amax m g (pl_order l) scale (lu_stats x) Hw Ho Hst) as (posts & lnm & E1 & E2 & E3). rewrite Er' in E2.
    assert (Lr : length rows = length (lu_stats x)) by (unfold rows; rewrite frames_length; apply map_length).
    assert (Hev : 0 < evidence g rows).
    { destruct (build_ok conf lines ul group wid Hcfg) as (l' & units' & tots' & c & g' & E' & _ & Eg' & Eo' & Ec & En' & Em & Hl & Ln & Nu & Pm & HU &
        Wg & Pg & S1 & S2 & S3 & S4 & Hdg & HL).
      rewrite Eb in E'. injection E' as <- <- <-.
      assert (Uo : utt_ok k D skel (lu_utt l tr x)).
      { destruct Htr as (T1 & T2).
        apply (utt_spoken k D group ul skel l units tots c g' Eg' Eo' Ec En' Em Nu HU Wg Pg S1 S2 S3 S4 Hdg HL Hsz tr x); [|exact Hx].
        intros i j Hij. destruct (in_dec Nat.eq_dec i (pl_ends l)) as [Hi|Hi]; [|rewrite T1 by tauto; now rewrite Eg'].
        destruct (in_dec Nat.eq_dec j (pl_starts l)) as [Hj|Hj]; [|rewrite T1 by tauto; now rewrite Eg']. now apply T2. }
      unfold lu_utt in Uo. rewrite Hali in Uo. destruct Uo as (_ & _ & _ & _ & p & Hp & Hpr). cbn [u_graph u_stats] in Hp, Hpr.
      rewrite <- Er'. apply (post_evidence m g (pl_order l) scale (lu_stats x) Hn p); [exact Hp|exact Hpr]. }
    set (v := fun t j => visit_mass g rows t j / evidence g rows).
    set (r := fun t => map (v t) (seq 0 (cg_n g))).
    assert (E4 : map (fun r => map r (seq 0 (cg_n g))) posts = map (map Num) (map r (seq 0 (length (lu_stats x))))).
    { assert (Q := posts_num m g (pl_order l) scale (lu_stats x) Hn posts lnm). unfold prow in Q. rewrite Er' in Q. now apply Q. }
    assert (Vp : forall t j, 0 <= v t j).
    { intros t j. unfold v, Rdiv. apply Rmult_le_pos; [|apply Rlt_le; now apply Rinv_0_lt_compat].
      unfold visit_mass. apply sumf_nonneg. intros; apply path_prob_nonneg. }
    set (U := map (fun t => map (fun se : nat * nat => rsum (Dec_Model.slice (r t) (fst se) (snd se))) (combine (pl_starts l) (pl_ends l))) (seq 0 (length (lu_stats x)))).
    assert (Ecb : combine (pl_starts l) (pl_ends l) = map (fun u => (fst u, (fst u + snd u - 1)%nat)) us).
    { rewrite Es, Ee. clear. induction us as [|u us IH]; [reflexivity|]. cbn [map combine]. now f_equal. }
    assert (Rng : forall s, sumf (fun u => if within (fst u) (fst u + snd u - 1) s then 1 else 0) us =
        (if within 0 (0 + list_sum tots) s then 1 else 0) - (if existsb (Nat.eqb s) (pl_ends l) then 1 else 0) /\
        Forall (fun u => (0 <= fst u /\ fst u + snd u <= 0 + list_sum tots)%nat) us).
    { intros s. rewrite Ee. apply ranges_sum; [|exact Econ]. eapply Forall_impl; [|exact Hlen]. intros u Hu. cbn beta in *. lia. }
    assert (Rlt : forall u, In u us -> (fst u + snd u <= cg_n g)%nat).
    { intros u Hu. destruct (Rng 0%nat) as (_ & F). assert (Q := proj1 (Forall_forall _ _) F u Hu). cbn beta in Q. lia. }
    assert (Sl : forall t u, (t < length rows)%nat -> In u us -> rsum (Dec_Model.slice (r t) (fst u) (fst u + snd u - 1)) =
        chance g rows (fun p => within (fst u) (fst u + snd u - 1) (nth t p 0%nat))).
    { intros t u Ht Hu. assert (Q := Rlt u Hu). unfold r. rewrite slice_map, slice_seq by lia.
      exact (chance_range g rows t (fst u) (fst u + snd u - 1) Ht ltac:(lia)). }
    assert (Lu : length units = length us) by (eapply F2_len; exact Sp).
    assert (Un : forall t, (t < length rows)%nat -> nth t U [] = map (fun u => chance g rows (fun p => within (fst u) (fst u + snd u - 1) (nth t p 0%nat))) us).
    { intros t Ht. unfold U. rewrite (map_nth_lt _ _ _ 0%nat) by (rewrite seq_length; lia). rewrite seq_nth by lia. simpl (0 + t)%nat.
      rewrite Ecb, map_map. apply map_ext_in. intros u Hu. cbn [fst snd]. now apply Sl. }
    assert (Ol : forall u kl s, spans u kl -> owned (snd u) s && negb (Nat.eqb s (fst kl + snd kl - 1)) = within (fst kl) (fst kl + snd kl - 1) s).
    { intros u kl s (t & -> & _ & _ & Hl). rewrite owned_seq by lia. replace (snd kl + 2 - 2)%nat with (snd kl) by lia. unfold within.
      destruct (Nat.leb_spec (fst kl) s), (Nat.ltb_spec s (fst kl + snd kl)), (Nat.eqb_spec s (fst kl + snd kl - 1)), (Nat.ltb_spec s (fst kl + snd kl - 1));
        simpl; try lia; reflexivity. }
    exists (map r (seq 0 (length (lu_stats x)))), U. split; [|split; [|split]].
    - split; [rewrite map_length, seq_length; lia|]. intros t Ht.
      assert (Et : nth t (map r (seq 0 (length (lu_stats x)))) [] = r t).
      { rewrite (map_nth_lt _ _ _ 0%nat) by (rewrite seq_length; lia). now rewrite seq_nth by lia. }
      rewrite Et. unfold r. split; [now rewrite map_length, seq_length|]. split.
      + change (rsum (map (v t) (seq 0 (cg_n g)))) with (sumf (v t) (seq 0 (cg_n g))). unfold v, Rdiv. rewrite sumf_scal_r, visit_mass_total by exact Ht. field. lra.
      + intros j Hj. rewrite (map_nth_lt _ _ _ 0%nat) by (now rewrite seq_length). rewrite seq_nth by exact Hj. now apply expect_visit.
    - split; [unfold U; rewrite map_length, seq_length; lia|]. intros t Ht. rewrite (Un t Ht). split; [now rewrite map_length|]. split.
      + transitivity (expect g rows (fun p => sumf (fun u : nat * nat => if within (fst u) (fst u + snd u - 1) (nth t p 0%nat) then 1 else 0) us)).
        * rewrite expect_sumf. reflexivity.
        * rewrite (expect_ext g rows _ (fun p => 1 + (-1) * (if existsb (Nat.eqb (nth t p 0%nat)) (pl_ends l) then 1 else 0))).
          -- rewrite expect_plus, expect_one, expect_scal by exact Hev. unfold chance. ring.
          -- intros p Hp. rewrite (proj1 (Rng _)). apply in_paths in Hp. destruct Hp as (Lp & Fp).
             assert (Hlt : (nth t p 0 < list_sum tots)%nat).
             { rewrite <- Eg. apply (proj1 (Forall_forall _ _) Fp). apply nth_In. lia. }
             unfold within. rewrite (proj2 (Nat.ltb_lt _ _)) by lia. simpl. ring.
      + intros i u e Hu He. destruct (Forall2_nth_error _ _ _ Sp i u Hu) as (kl & Hkl & S1).
        assert (Hlt : (i < length us)%nat) by (apply nth_error_Some; congruence).
        rewrite (map_nth_lt _ _ _ (0%nat, 0%nat)) by exact Hlt. rewrite (nth_error_nth _ _ _ Hkl).
        rewrite Ee in He. rewrite nth_error_map, Hkl in He. cbn [option_map] in He. injection He as <-.
        apply chance_ext. intros p _. symmetry. now apply (Ol u kl).
    - rewrite last_nth. assert (Lt : (pred (length rows) < length rows)%nat).
      { rewrite Lr. destruct (lu_stats x); [congruence|simpl; lia]. }
      replace (length U) with (length rows) by (unfold U; rewrite map_length, seq_length; exact Lr).
      rewrite (Un _ Lt), Lu. rewrite <- (Na_Proofs.map_const 0 us). apply map_ext_in. intros u Hu. apply chance_none. intros p Hp Hpr.
      assert (He : In (nth (pred (length rows)) p 0%nat) (pl_ends l)).
      { apply (path_end k D skel st tr x rows p); auto. }
      set (s := nth (pred (length rows)) p 0%nat) in *. destruct (within (fst u) (fst u + snd u - 1) s) eqn:Ew; [|reflexivity]. exfalso.
      destruct (Rng s) as (Q & _). assert (Q1 : existsb (Nat.eqb s) (pl_ends l) = true) by (apply existsb_exists; exists s; split; [exact He|apply Nat.eqb_refl]).
      rewrite Q1 in Q.
      assert (Q2 : 1 <= sumf (fun u : nat * nat => if within (fst u) (fst u + snd u - 1) s then 1 else 0) us).
      { assert (Q3 := sumf_ge_term (fun u : nat * nat => if within (fst u) (fst u + snd u - 1) s then 1 else 0) us u).
        cbn beta in Q3. rewrite Ew in Q3. apply Q3; [|exact Hu]. intros a _. destruct (within (fst a) (fst a + snd a - 1) s); lra. }
      destruct (within 0 (0 + list_sum tots) s); lra.
    - intros state log. unfold posteriors_utt. fold g. rewrite E1. cbn [bindr]. rewrite E4.
      assert (F1 : Forall (Forall (fun p => 0 <= p)) (map r (seq 0 (length (lu_stats x))))).
      { apply Forall_forall. intros y Hy. apply in_map_iff in Hy. destruct Hy as (t & <- & _). unfold r. apply Forall_forall. intros z Hz.
        apply in_map_iff in Hz. destruct Hz as (j & <- & _). apply Vp. }
      assert (F2 : Forall (Forall (fun p => 0 <= p)) U).
      { apply Forall_forall. intros y Hy. unfold U in Hy. apply in_map_iff in Hy. destruct Hy as (t & <- & Ht). apply Forall_forall. intros z Hz.
        rewrite Ecb, map_map in Hz. apply in_map_iff in Hz. destruct Hz as (u & <- & Hu). cbn [fst snd].
        assert (Q := Rlt u Hu). unfold r. rewrite slice_map, slice_seq by lia. apply sumf_nonneg. intros; apply Vp. }
      assert (E5 : map (state2phone_row (pl_starts l) (pl_ends l)) (map (map Num) (map r (seq 0 (length (lu_stats x))))) = map (map Num) U).
      { unfold U. rewrite !map_map. apply map_ext. intros t. apply row_num. }
      f_equal. destruct state; [|rewrite E5]; (destruct log; [now apply nlogs|reflexivity]).
  Qed.
End Loop.

(** The output for an utterance: the states and the units *)
Definition computes (amax : nat -> (nat -> lp) -> nat) (scale : R) (units : list (string * graph)) (l : ploop) (m : mset)
  (tr : nat -> nat -> lp) (x : lutt) : Prop :=
  let g := with_trans (pl_graph l) tr in
  let rows := HMM_Spec.frames 1 (denote m) (map (vscale scale) (lu_stats x)) in
  exists P U, state_posts g rows P /\ unit_posts units (pl_ends l) g rows U /\
    forall state log, posteriors_utt amax scale state log m l tr (lu_stats x) =
      Ok (map (map (fun p => Num (if log then ln (1 / 100000 + p) else p))) (if state then P else U)).

(** For every utterance the loop can produce, the command computes, with --state,
    the probability of each state at each frame, and these sum to one; without it,
    the probability of being in each unit but in its last state: the rows sum to
    one less the probability of the last states.  With --log, the logarithms of
    these plus 1e-5. *)
Theorem C185_values_partial : forall amax scale conf lines ul group wid l units tots k D skel st tr x,
  config_ok conf lines ul group -> (forall g t, In (g, t) conf -> straight t) -> (forall g t, In (g, t) conf -> entered_once t /\ no_dead_end t) ->
  build_loop conf lines group wid = Ok (l, units, tots) -> size skel = list_sum tots -> typed k D st skel -> loop_trans l tr ->
  spoken k D group ul units x -> lu_ali x = None ->
  computes amax scale units l (inst (forms st) skel) tr x.
Proof.
  intros amax scale conf lines ul group wid l units tots k D skel st tr x H1 H2 H3 H4 H5 H6 H7 H8 H9.
  destruct (all_posts conf lines ul group wid l units tots H1 H2 H3 H4 amax scale k D skel st tr x H5 H6 H7 H8 H9) as (P & U & A & B & _ & E).
  exists P, U. auto.
Qed.

(** The last frame of an utterance is always in the last state of a unit: the row
    of the last frame is zero for every utterance, whatever the model. *)
Theorem C185_last_frame_refuted : forall amax scale conf lines ul group wid l units tots k D skel st tr x,
  config_ok conf lines ul group -> (forall g t, In (g, t) conf -> straight t) -> (forall g t, In (g, t) conf -> entered_once t /\ no_dead_end t) ->
  build_loop conf lines group wid = Ok (l, units, tots) -> size skel = list_sum tots -> typed k D st skel -> loop_trans l tr ->
  spoken k D group ul units x -> lu_ali x = None ->
  exists U, posteriors_utt amax scale false false (inst (forms st) skel) l tr (lu_stats x) = Ok U /\
    length U = length (lu_stats x) /\ List.last U [] = repeat (Num 0) (length units) /\
    (1 <= length units)%nat.
Proof.
  intros amax scale conf lines ul group wid l units tots k D skel st tr x H1 H2 H3 H4 H5 H6 H7 H8 H9.
  destruct (all_posts conf lines ul group wid l units tots H1 H2 H3 H4 amax scale k D skel st tr x H5 H6 H7 H8 H9) as (P & U & _ & (LU & _) & Z & E).
  eexists. split; [apply (E false false)|]. cbn match. split; [|split].
  - rewrite map_length, LU. unfold HMM_Spec.frames. now rewrite !map_length.
  - assert (Lst : forall M : list (list R), M <> [] -> List.last (map (map Num) M) [] = map Num (List.last M [])).
    { clear. induction M as [|a M IH]; [congruence|]. intros _. destruct M as [|b M]; [reflexivity|]. apply IH. discriminate. }
    cbv beta iota. rewrite Lst.
    + rewrite Z. apply map_rep.
    + intros E0. rewrite E0 in LU. unfold HMM_Spec.frames in LU. rewrite !map_length in LU. destruct H8 as (xs & Ex & _ & Hne & _).
      rewrite Ex in LU. destruct xs; [congruence|discriminate].
  - destruct (C178_loop conf lines ul group wid H1) as (l' & units' & tots' & E' & _ & _ & Ls & _ & _ & _ & B1 & _).
    rewrite H4 in E'. injection E' as <- <- <-. apply F2_len in B1. rewrite B1, Ls. destruct H1 as (_ & _ & Hne & _). destruct ul; [congruence|simpl; lia].
Qed.

(** An utterance the loop cannot produce: NaN everywhere, and no error. *)
Theorem C185_impossible : forall amax scale state log conf lines ul group wid l units tots k D skel st tr stats,
  config_ok conf lines ul group -> (forall g t, In (g, t) conf -> straight t) ->
  build_loop conf lines group wid = Ok (l, units, tots) -> size skel = list_sum tots -> typed k D st skel ->
  stats <> [] -> no_path (with_trans (pl_graph l) tr) (length stats) ->
  posteriors_utt amax scale state log (inst (forms st) skel) l tr stats =
  Ok (repeat (repeat NaN (if state then list_sum tots else length units)) (length stats)).
Proof.
  intros amax scale state log conf lines ul group wid l units tots k D skel st tr stats H1 H2 Eb Hsz T Hst Hno. set (m := inst (forms st) skel).
  destruct (reorder_own conf lines ul group wid l units tots H1 Eb skel st k D Hsz T) as (Hw & Ho & Er & Eor & En). fold m in Hw, Ho, Er.
  destruct (spans_are conf lines ul group wid l units tots H1 H2 Eb) as (us & Sp & Es & Ee & Econ & Hlen).
  set (g := with_trans (pl_graph l) tr) in *.
  assert (Eg : cg_n g = list_sum tots) by exact En.
  assert (Hn : length (pl_order l) = cg_n g) by (rewrite Eor, seq_length, Eg; reflexivity).
  destruct (posts_are amax m g (pl_order l) scale stats Hw Ho Hst) as (posts & lnm & E1 & E2 & E3).
  assert (Hev := post_no_evidence m g (pl_order l) scale stats Hn Hno).
  assert (E4 := posts_nan m g (pl_order l) scale stats Hn posts lnm E2 E3 Hev).
  unfold posteriors_utt. fold g. rewrite E1. cbn [bindr]. rewrite E4, Eg.
  assert (E5 : state2phone_row (pl_starts l) (pl_ends l) (repeat NaN (list_sum tots)) = repeat NaN (length units)).
  { assert (Ecb : combine (pl_starts l) (pl_ends l) = map (fun u => (fst u, (fst u + snd u - 1)%nat)) us).
    { rewrite Es, Ee. clear. induction us as [|u us IH]; [reflexivity|]. cbn [map combine]. now f_equal. }
    destruct (ranges_sum 0%nat us 0%nat (list_sum tots)) as (_ & F); [eapply Forall_impl; [|exact Hlen]; intros u Hu; cbn beta in *; lia|exact Econ|].
    unfold state2phone_row. rewrite Ecb, map_map, (F2_len _ _ _ Sp), <- (Na_Proofs.map_const NaN us).
    apply map_ext_in. intros u Hu. cbn [fst snd]. assert (Q1 := proj1 (Forall_forall _ _) F u Hu). assert (Q2 := proj1 (Forall_forall _ _) Hlen u Hu).
    cbn beta in Q1, Q2. replace (repeat NaN (list_sum tots)) with (map (fun _ => NaN) (seq 0 (list_sum tots))) by (rewrite Na_Proofs.map_const, seq_length; reflexivity).
    rewrite slice_map, slice_seq by lia. destruct (fst u + snd u - 1 - fst u)%nat as [|z] eqn:Ez; [lia|]. cbn [seq map]. unfold nsum. cbn [fold_right].
    reflexivity. }
  f_equal. destruct state; [|rewrite map_rep, E5]; (destruct log; [|reflexivity]); rewrite !map_rep; reflexivity.
Qed.

(** ** After training *)
Theorem C185_unigram_training_partial : forall enum sort amax eps prior conc conf lines ul group wid k D scale ds skel st eg lrate xs jobss,
  config_ok conf lines ul group -> (forall g t, In (g, t) conf -> straight t) -> (forall g t, In (g, t) conf -> entered_once t /\ no_dead_end t) ->
  In prior unigram_priors -> match conc with Some c => 0 <= c | None => True end ->
  is_enum enum -> (forall counts, sorts_desc counts (sort counts)) -> 0 <= scale -> (0 < ds)%nat ->
  0 <= lrate <= 1 -> prior = Some "dirichlet"%string \/ lrate = 1 ->
  exists l lo units tots w, make_loop eps prior conc conf lines group wid = Ok (l, lo, units, tots) /\
    wpar_of (lo_weights lo) = Some w /\
    (size skel = list_sum tots -> typed k D st skel -> NoDup (params skel) -> ~ In wid (params skel) ->
     Forall (@NoDup nat) eg -> incl (concat eg) (params skel) ->
     Forall (spoken k D group ul units) xs -> xs <> [] -> Forall (shares xs) jobss ->
     forall n, (n <= length jobss)%nat ->
     exists s v, loop_rounds enum sort amax scale ds l skel wid eg lrate true xs (firstn n jobss) (pw_init l w st, None) = Ok (s, v) /\
       forall amax' scale' x, spoken k D group ul units x -> lu_ali x = None ->
         computes amax' scale' units l (inst (forms (pw_pars s)) skel) (pw_trans s) x).
Proof.
  intros enum sort amax eps prior conc conf lines ul group wid k D scale ds skel st eg lrate xs jobss H Hstr Hent Hpr Hconc He Hso Hs Hds Hlr Hr.
  destruct (C178_unigram_training enum sort amax eps prior conc conf lines ul group wid k D scale ds skel st eg lrate xs jobss H Hpr Hconc He Hso Hs Hds Hlr Hr)
    as (l & lo & units & tots & w & E1 & Ew & HT).
  exists l, lo, units, tots, w. split; [exact E1|]. split; [exact Ew|].
  intros Hsz T Hnd Hwid Hgn Hgi Hx Hne Hj n Hn.
  destruct (HT Hsz T Hnd Hwid Hgn Hgi Hx Hne Hj n n (conj (le_n n) Hn)) as (s & s' & v & v' & A & A' & G & _).
  rewrite A in A'. injection A' as <- <-. exists s, v. split; [exact A|]. intros amax' scale' x Hsp Hali.
  assert (E2 := make_built _ _ _ _ _ _ _ _ _ _ _ E1). destruct G as (G1 & _ & (_ & G3)).
  destruct (ends_leave conf lines ul group wid l units tots H E2) as (Hl & Hlt).
  apply (C185_values_partial amax' scale' conf lines ul group wid l units tots k D); auto.
  apply (good_trans l _ (fun _ q => elog_weight (pw_weights s) q)); auto.
  - apply loop_rounds_else in A. cbn [fst] in A. intros i j Hij. rewrite A by exact Hij. now apply unigram_other.
  - intros i q Hi Hq. cbv zeta. apply G3; [now apply nth_In|exact Hq].
Qed.

Theorem C185_bigram_training_partial : forall enum amax eps prior conc conf lines ul group wid k D scale ds skel st eg lrate xs jobss,
  config_ok conf lines ul group -> (forall g t, In (g, t) conf -> straight t) -> (forall g t, In (g, t) conf -> entered_once t /\ no_dead_end t) ->
  In prior bigram_priors -> match conc with Some c => 0 <= c | None => True end -> 0 <= eps ->
  is_enum enum -> 0 <= scale -> (0 < ds)%nat -> 0 <= lrate <= 1 ->
  exists l lo units tots b, make_loop eps prior conc conf lines group wid = Ok (l, lo, units, tots) /\
    bset_of (lo_weights lo) = Some b /\
    (size skel = list_sum tots -> typed k D st skel -> NoDup (params skel) -> ~ In wid (params skel) ->
     Forall (@NoDup nat) eg -> incl (concat eg) (params skel) ->
     Forall (fun x => lu_ali x = None /\ spoken k D group ul units x) xs -> xs <> [] -> Forall (shares xs) jobss ->
     forall n, (n <= length jobss)%nat ->
     exists s v, bg_rounds enum amax scale ds l skel wid eg lrate true xs (firstn n jobss) (bg_init l b st, None) = Ok (s, v) /\
       forall amax' scale' x, spoken k D group ul units x -> lu_ali x = None ->
         computes amax' scale' units l (inst (forms (bg_pars s)) skel) (bg_trans s) x).
Proof.
  intros enum amax eps prior conc conf lines ul group wid k D scale ds skel st eg lrate xs jobss H Hstr Hent Hpr Hconc Heps He Hs Hds Hlr.
  destruct (C178_bigram_training enum amax eps prior conc conf lines ul group wid k D scale ds skel st eg lrate xs jobss H Hpr Hconc Heps He Hs Hds Hlr)
    as (l & lo & units & tots & b & E1 & Ew & HT).
  exists l, lo, units, tots, b. split; [exact E1|]. split; [exact Ew|].
  intros Hsz T Hnd Hwid Hgn Hgi Hx Hne Hj n Hn.
  destruct (HT Hsz T Hnd Hwid Hgn Hgi Hx Hne Hj n n (conj (le_n n) Hn)) as (s & s' & v & v' & A & A' & G & _).
  rewrite A in A'. injection A' as <- <-. exists s, v. split; [exact A|]. intros amax' scale' x Hsp Hali.
  assert (E2 := make_built _ _ _ _ _ _ _ _ _ _ _ E1). destruct G as (G1 & _ & (_ & G3)).
  destruct (ends_leave conf lines ul group wid l units tots H E2) as (Hl & Hlt).
  apply (C185_values_partial amax' scale' conf lines ul group wid l units tots k D); auto.
  apply (good_trans l _ (elog_used (length (pl_starts l)) (bg_set s))); auto.
  apply bg_rounds_else in A. cbn [fst] in A. intros i j Hij. rewrite A by exact Hij. now apply bigram_other.
Qed.

(** ** The units of the recipes *)
Lemma aud_straight g t : In (g, t) aud_conf -> straight t.
Proof.
  intros [Ht|[Ht|[]]]; injection Ht as <- <-.
  - destruct nonspeech_ok as (_ & n & e & x & Hc & _). assert (n = 7%nat) by now apply nonspeech_contiguous. subst n. exists 7%nat.
    split; [exact Hc|]. split; (split; [lia|]); (split; [eexists; simpl; tauto|]);
      intros a Ha; simpl in Ha; repeat (destruct Ha as [<-|Ha]; [cbn [fst snd]; lia|]); destruct Ha.
  - destruct speech_ok as (_ & n & e & x & Hc & _). assert (n = 5%nat) by now apply speech_contiguous. subst n. exists 5%nat.
    split; [exact Hc|]. split; (split; [lia|]); (split; [eexists; simpl; tauto|]);
      intros a Ha; simpl in Ha; repeat (destruct Ha as [<-|Ha]; [cbn [fst snd]; lia|]); destruct Ha.
Qed.

(** Acoustic unit discovery: after any number of rounds of training, with
    utterances of three frames or more, the values are these; with shorter
    utterances they are NaN. *)
Theorem C185_aud_partial : forall enum sort amax eps conc ul group wid k D scale ds skel st eg xs jobss,
  aud_units ul group -> match conc with Some c => 0 <= c | None => True end ->
  is_enum enum -> (forall counts, sorts_desc counts (sort counts)) -> 0 <= scale -> (0 < ds)%nat ->
  exists l lo units tots w, make_loop eps None conc aud_conf (map (fun u => [fst u; snd u]) ul) group wid = Ok (l, lo, units, tots) /\
    wpar_of (lo_weights lo) = Some w /\
    (size skel = list_sum (map aud_states ul) -> typed k D st skel -> NoDup (params skel) -> ~ In wid (params skel) ->
     Forall (@NoDup nat) eg -> incl (concat eg) (params skel) ->
     let usable x := lu_ali x = None /\ exists ys, lu_stats x = map (suff k) ys /\ Forall (frame_ok k D) ys /\ (3 <= length ys)%nat in
     Forall usable xs -> xs <> [] -> Forall (shares xs) jobss ->
     forall n, (n <= length jobss)%nat ->
     exists s v, loop_rounds enum sort amax scale ds l skel wid eg 1 true xs (firstn n jobss) (pw_init l w st, None) = Ok (s, v) /\
       let m := inst (forms (pw_pars s)) skel in
       (forall amax' scale' x, usable x -> computes amax' scale' units l m (pw_trans s) x) /\
       forall amax' scale' state log stats, (1 <= length stats < 3)%nat ->
         posteriors_utt amax' scale' state log m l (pw_trans s) stats =
         Ok (repeat (repeat NaN (if state then list_sum (map aud_states ul) else length ul)) (length stats))).
Proof.
  intros enum sort amax eps conc ul group wid k D scale ds skel st eg xs jobss Hu Hconc He Hso Hs Hds.
  assert (Hc := aud_config ul group Hu).
  destruct (C178_unigram_training enum sort amax eps None conc aud_conf _ ul group wid k D scale ds skel st eg 1 xs jobss Hc)
    as (l & lo & units & tots & w & E1 & Ew & HT); auto.
  { simpl. tauto. }
  { lra. }
  assert (E2 := make_built _ _ _ _ _ _ _ _ _ _ _ E1).
  exists l, lo, units, tots, w. split; [exact E1|]. split; [exact Ew|].
  rewrite <- (C178_aud_size ul group wid l units tots Hu E2).
  intros Hsz T Hnd Hwid Hgn Hgi usable Hx Hne Hj n Hn.
  assert (Sp : forall x, usable x -> spoken k D group ul units x).
  { intros x (Xa & ys & Xs & Xf & Xl). apply (C178_aud_frames ul group wid k D x ys l units tots); auto. intros ->. simpl in Xl. lia. }
  destruct (HT Hsz T Hnd Hwid Hgn Hgi) with (n := n) (m := n) as (s & s' & v & v' & A & A' & G & _); auto.
  { eapply Forall_impl; [|exact Hx]. exact Sp. }
  rewrite A in A'. injection A' as <- <-. exists s, v. split; [exact A|]. intros m.
  destruct G as (G1 & _ & (_ & G3)). destruct (ends_leave _ _ ul group wid l units tots Hc E2) as (Hl & Hlt').
  assert (Htr : loop_trans l (pw_trans s)).
  { apply (good_trans l _ (fun _ q => elog_weight (pw_weights s) q)); auto.
    - apply loop_rounds_else in A. cbn [fst] in A. intros i j Hij. rewrite A by exact Hij. now apply unigram_other.
    - intros i q Hi Hq. cbv zeta. apply G3; [now apply nth_In|exact Hq]. }
  split.
  - intros amax' scale' x Hux. apply (C185_values_partial amax' scale' aud_conf (map (fun u : string * string => [fst u; snd u]) ul) ul group wid l units tots k D); auto; [exact aud_straight|exact aud_entered|apply Hux].
  - intros amax' scale' state log stats Hlt.
    assert (Lu : length ul = length units).
    { destruct (C178_loop _ _ _ _ wid Hc) as (l' & units' & tots' & E' & _ & _ & Ls & _ & _ & _ & B1 & _).
      rewrite E2 in E'. injection E' as <- <- <-. apply F2_len in B1. now rewrite B1, Ls. }
    rewrite Lu.
    apply (C185_impossible amax' scale' state log aud_conf (map (fun u : string * string => [fst u; snd u]) ul) ul group wid l units tots k D skel (pw_pars s)); auto; [exact aud_straight| |].
    { intros ->. simpl in Hlt. lia. }
    set (x0 := {| lu_ali := None; lu_stats := stats |}).
    destruct (proj2 (aud_says ul group wid l units tots Hu E2 3%nat ltac:(lia)) (le_n 3)) as (ls0 & Sa & Sl).
    assert (Hn0 : stats <> []) by (intros ->; simpl in Hlt; lia).
    assert (Him : impossible (lu_utt l (pw_trans s) x0)).
    { apply (C184_loop _ _ ul group wid l units tots (pw_trans s) x0 ls0 Hc aud_entered E2 Htr Sa); auto.
      - intros ->. discriminate.
      - intros (ls & Sa' & Sl'). cbn [x0 lu_stats] in Sl'.
        assert (3 <= length stats)%nat; [|lia].
        apply (proj1 (aud_says ul group wid l units tots Hu E2 (length stats) ltac:(lia))). exists ls. auto. }
    exact Him.
Qed.

(** The loop of C182_ex before training: three frames, of which the last has no
    unit, and then two frames, too few for silence. *)
Example C185_ex : forall enum sort amax, is_enum enum -> (forall counts, sorts_desc counts (sort counts)) ->
  exists l lo units tots w U,
    make_loop 1 None None aud_conf [["sil"; "non-speech-unit"]; ["au1"; "speech-unit"]]%string (Some "non-speech-unit"%string) 9 =
      Ok (l, lo, units, tots) /\ wpar_of (lo_weights lo) = Some w /\
    let m := inst (forms ux_st) ux_skel in
    let tr := pw_trans (pw_init l w ux_st) in
    posteriors_utt amax 1 false false m l tr (lu_stats (ux_utt [0; 3; 5])) = Ok U /\
    length U = 3%nat /\ nth 2 U [] = [Num 0; Num 0] /\
    posteriors_utt amax 1 true true m l tr (lu_stats (ux_utt [1; 1])) = Ok [repeat NaN 8; repeat NaN 8] /\
    posteriors_utt amax 1 false true m l tr (lu_stats (ux_utt [1; 1])) = Ok [[NaN; NaN]; [NaN; NaN]].
Proof.
  intros enum sort amax He Hso.
  destruct (C185_aud_partial enum sort amax 1 None ux_units (Some "non-speech-unit"%string) 9 KDiag 1 1 5 ux_skel ux_st [[1]]%nat
    [ux_utt [0; 3; 5]] [] ux_aud I He Hso Rle_0_1 ltac:(lia)) as (l & lo & units & tots & w & E & Ew & HT).
  assert (El : map (fun u : string * string => [fst u; snd u]) ux_units = [["sil"; "non-speech-unit"]; ["au1"; "speech-unit"]]%string) by reflexivity.
  assert (E2 := make_built _ _ _ _ _ _ _ _ _ _ _ E).
  assert (Hc := aud_config ux_units _ ux_aud).
  assert (Hg : Forall (@NoDup nat) [[1]]%nat).
  { constructor; [|constructor]. constructor; [intros []|constructor]. }
  assert (N : NoDup (params ux_skel)) by (constructor; [intros []|constructor]).
  assert (Hw : ~ In 9%nat (params ux_skel)) by (intros [H|[]]; discriminate).
  assert (Ut : lu_ali (ux_utt [0; 3; 5]) = None /\
    exists ys, lu_stats (ux_utt [0; 3; 5]) = map (suff KDiag) ys /\ Forall (frame_ok KDiag 1) ys /\ (3 <= length ys)%nat).
  { split; [reflexivity|]. exists (map (fun v => [v]) [0; 3; 5]). split; [apply ux_frames|]. split; [apply ux_frames|]. cbn. lia. }
  destruct (HT eq_refl ux_typed N Hw Hg (incl_refl _)) with (n := 0%nat) as (s & v & A & B1 & B2).
  { constructor; [exact Ut|constructor]. }
  { discriminate. }
  { constructor. }
  { cbn. lia. }
  cbn [firstn] in A. injection A as <- <-.
  assert (Htr : loop_trans l (pw_trans (pw_init l w ux_st))).
  { destruct (C178_unigram_training enum sort amax 1 None None aud_conf _ ux_units _ 9 KDiag 1 1 5 ux_skel ux_st [[1]]%nat 1 [ux_utt [0; 3; 5]] [] Hc)
      as (l' & lo' & units' & tots' & w' & E1' & Ew' & HT'); auto; try lra; try lia.
    { simpl. tauto. }
    rewrite E in E1'. injection E1' as <- <- <- <-. rewrite Ew in Ew'. injection Ew' as <-.
    assert (Hsz : size ux_skel = list_sum tots) by (rewrite (C178_aud_size ux_units _ 9 l units tots ux_aud E2); reflexivity).
    destruct Ut as (U1 & ys & U2 & U3 & U4).
    assert (Sp : spoken KDiag 1 (Some "non-speech-unit"%string) ux_units units (ux_utt [0; 3; 5])).
    { apply (C178_aud_frames ux_units _ 9 KDiag 1 _ ys l units tots); auto. exact ux_aud. intros ->. simpl in U4. lia. }
    destruct (HT' Hsz ux_typed N Hw Hg (incl_refl _)) with (n := 0%nat) (m := 0%nat) as (s & s' & v & v' & A & A' & G & _); auto.
    { discriminate. }
    rewrite A in A'. injection A' as <- <-. cbn [firstn] in A. injection A as Es _. destruct G as (G1 & _ & (_ & G3)). destruct (ends_leave _ _ _ _ _ l units tots Hc E2) as (Hl & Hlt').
    rewrite Es. apply (good_trans l _ (fun _ q => elog_weight (pw_weights s) q)); auto.
    - intros i j Hij. rewrite <- Es. now apply unigram_other.
    - intros i q Hi Hq. cbv zeta. apply G3; [now apply nth_In|exact Hq]. }
  assert (Hsz : size ux_skel = list_sum tots) by (rewrite (C178_aud_size ux_units _ 9 l units tots ux_aud E2); reflexivity).
  destruct Ut as (U1 & ys & U2 & U3 & U4).
  assert (Sp : spoken KDiag 1 (Some "non-speech-unit"%string) ux_units units (ux_utt [0; 3; 5])).
  { apply (C178_aud_frames ux_units _ 9 KDiag 1 _ ys l units tots); auto. exact ux_aud. intros ->. simpl in U4. lia. }
  destruct (C185_last_frame_refuted amax 1 _ _ _ _ 9 l units tots KDiag 1 ux_skel ux_st (pw_trans (pw_init l w ux_st)) (ux_utt [0; 3; 5])
    Hc aud_straight aud_entered E2 Hsz ux_typed Htr Sp U1) as (U & F1 & F2 & F3 & _).
  exists l, lo, units, tots, w, U. rewrite El in E. split; [exact E|]. split; [exact Ew|]. intros m tr.
  split; [exact F1|]. cbn [ux_utt lu_stats map length] in F2. split; [exact F2|].
  assert (Lu : length units = 2%nat).
  { destruct (C178_loop _ _ _ _ 9 Hc) as (l' & units' & tots' & E' & _ & _ & Ls & _ & _ & _ & B & _).
    rewrite E2 in E'. injection E' as <- <- <-. apply F2_len in B. rewrite B, Ls. reflexivity. }
  rewrite Lu in F3. split; [|split; [exact (B2 amax 1 true true (lu_stats (ux_utt [1; 1])) ltac:(cbn; lia))|exact (B2 amax 1 false true (lu_stats (ux_utt [1; 1])) ltac:(cbn; lia))]].
  destruct U as [|a [|b [|c [|? ?]]]]; try discriminate. exact F3.
Qed.

Print Assumptions C185_values_partial.
Print Assumptions C185_last_frame_refuted.
Print Assumptions C185_impossible.
Print Assumptions C185_unigram_training_partial.
Print Assumptions C185_bigram_training_partial.
Print Assumptions C185_aud_partial.

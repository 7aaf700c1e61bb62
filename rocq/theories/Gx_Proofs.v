(** Proofs for C198: what a step of the training of a mixture gains. *)
From Coq Require Import Reals List Arith Bool Lia Lra Permutation.
From Verif Require Import Prelude Vec Gibbs Lgamma FB_Model FB_Spec FB_Proofs Edit_Model Dec_Model Set_Model Set_Spec Set_Proofs
  HMM_Model HMM_Spec HMM_Proofs HMM_Props Dist_Model Dist_Spec Dist_Proofs NG_Proofs KL_Proofs Dist_Props Mat NW_Model NW_Spec NW_Proofs NW_KL NW_Props
  SB_Model SB_Spec SB_Proofs SB_Props Sk_Model Sk_Spec Sk_Proofs Sk_Props Vt_Model Vt_Spec Vt_Proofs Vt_Props Vl_Proofs Vl_Props Gn_Spec Gn_Proofs
  Mx_Model Mx_Spec Mx_Proofs Gx_Spec.
Import ListNotations.
Local Open Scope R_scope.

Section Weights.
  Variables (n : nat) (w lrate : R) (resps : mat).
  Hypothesis Hn : (0 < n)%nat.
  Hypothesis Hw : 0 <= w.
  Hypothesis Hr : Forall (fun r => length r = n /\ Forall (fun v => 0 <= v) r) resps.

  Lemma dir_moved p q : dir_ok n p -> dir_ok n q -> 0 <= lrate <= 1 ->
    let q' := std_update dir_nat dir_from_nat lrate p q (vscale w (colsum n (map cat_stats resps))) in
    dir_kl q q' + lrate * (dir_kl q' p - dir_kl q p) <= lrate * sumf (fun j => mx_counts w resps j *
      ((digamma (nth j q' 0) - digamma (rsum q')) - (digamma (nth j q 0) - digamma (rsum q)))) (seq 0 n).
  Proof using Hn Hw Hr.
    intros Hp Hq Hl q'. set (data := map (fun r => (w, r)) resps).
    assert (Wc : weights_cell n (CWeights p q)) by (split; auto).
    assert (Fd : Forall (fun gx => 0 <= fst gx /\ fits 0 (CWeights p q) (snd gx)) data).
    { unfold data. apply Forall_map. eapply Forall_impl; [|exact Hr]. intros r [Lr Fr]. cbn [fst snd fits].
      split; [exact Hw|]. split; [|exact Fr]. rewrite Lr. symmetry. apply Hp. }
    assert (Lc : forall r, In r resps -> r <> [] /\ length r = n).
    { intros r Hin. destruct (proj1 (Forall_forall _ _) Hr r Hin) as [Lr _]. split; [intros ->; simpl in Lr; lia|exact Lr]. }
    assert (Hlen : forall gx, In gx data -> length (cat_suff_stats (snd gx)) = n).
    { intros gx Hin. unfold data in Hin. apply in_map_iff in Hin. destruct Hin as (r & <- & Hin). cbn [snd].
      destruct (Lc r Hin). now rewrite cat_suff_stats_length. }
    set (stats := wstats n cat_suff_stats data).
    assert (Lst : length stats = n) by (unfold stats; now apply wstats_length).
    assert (Lf : length (cell_form (CWeights p q)) = n) by (now apply weights_form_length).
    assert (Es : vscale w (colsum n (map cat_stats resps)) = stats).
    { assert (Fr : Forall (fun r => length r = n) (map cat_stats resps)).
      { apply Forall_map, Forall_forall. intros r Hin. destruct (Lc r Hin) as [A B].
        change (cat_stats r) with (cat_suff_stats r). now rewrite cat_suff_stats_length. }
      apply vec_ext; [rewrite vscale_length, colsum_length by exact Fr; now symmetry|].
      intros j Hj. rewrite vscale_length, colsum_length in Hj by exact Fr.
      rewrite vscale_nth, colsum_nth by auto. unfold stats. rewrite wstats_nth by auto. unfold data.
      rewrite !sumf_map, <- sumf_scal_l. reflexivity. }
    destruct (weights_step n 0 lrate (CWeights p q) data Wc Hl Fd) as [A _].
    assert (B := Gn_Proofs.weights_gain n 0 lrate (CWeights p q) data Wc Hl Fd). cbv zeta in A, B. rewrite Lf in A, B.
    change (wstats n (cell_fn (CWeights p q)) data) with stats in A, B. unfold q'. rewrite Es.
    change (cell_update lrate stats (CWeights p q)) with (CWeights p (std_update dir_nat dir_from_nat lrate p q stats)) in A, B.
    set (q1 := std_update dir_nat dir_from_nat lrate p q stats) in *. destruct A as [_ Hq1].
    assert (Hdot : forall x, dir_ok n x -> dot stats (dir_ess x) =
      sumf (fun j => mx_counts w resps j * (digamma (nth j x 0) - digamma (rsum x))) (seq 0 n)).
    { intros x (Lx & _). assert (Le : length (dir_ess x) = n) by (rewrite dir_ess_length; auto; intros ->; simpl in Lx; lia).
      rewrite dot_nth, Lst by congruence.
      rewrite (sumf_ext _ (fun i => sumf (fun r => w * (nth i (cat_suff_stats r) 0 * nth i (dir_ess x) 0)) resps)).
      2:{ intros i Hi. apply in_seq in Hi. unfold stats. rewrite wstats_nth by (auto; lia). unfold data.
          rewrite sumf_map, <- sumf_scal_r. apply sumf_ext. intros r _. cbn [fst snd]. ring. }
      rewrite sumf_swap. unfold mx_counts.
      rewrite (sumf_ext (fun j => w * sumf (fun r => nth j r 0) resps * (digamma (nth j x 0) - digamma (rsum x)))
        (fun j => sumf (fun r => w * (nth j r 0 * cat_logprob (dir_ess x) j)) resps)).
      2:{ intros j Hj. apply in_seq in Hj. rewrite cat_logprob_ess by (rewrite Lx; lia).
          rewrite sumf_scal_l, sumf_scal_r. ring. }
      symmetry. rewrite sumf_swap. symmetry. apply sumf_ext. intros r Hin. destruct (Lc r Hin) as [Nr Lr]. rewrite !sumf_scal_l. f_equal.
      assert (Ld := cat_suff_stats_length r Nr). rewrite Lr in Ld.
      replace (seq 0 n) with (seq 0 (length (cat_suff_stats r))) at 1 by (now rewrite Ld).
      rewrite <- dot_nth by congruence. rewrite dot_cat by (auto; congruence). now rewrite Lr. }
    cbn [cell_form cell_kl moved] in B. rewrite !Hdot in B by auto.
    rewrite (sumf_ext _ (fun j => mx_counts w resps j * (digamma (nth j q1 0) - digamma (rsum q1)) -
      mx_counts w resps j * (digamma (nth j q 0) - digamma (rsum q)))) by (intros; ring).
    rewrite sumf_minus. lra.
  Qed.
End Weights.

Section Comps.
  Variables (k : kind) (D : nat) (skel : mset) (w lrate : R) (group : list nat).
  Hypothesis Hnd : NoDup (params skel).
  Hypothesis Hw : 0 <= w.
  Hypothesis Hl : 0 <= lrate <= 1.
  (** the frames with their responsibilities *)
  Variable FR : list (list R * list R).
  Hypothesis HFR : Forall (fun yr => frame_ok k D (fst yr) /\ length (snd yr) = size skel /\ Forall (fun v => 0 <= v) (snd yr)) FR.
  Variable st : state.
  Hypothesis T : typed k D st skel.

  Local Notation crow := (crow k skel FR st).
  Local Notation cacc := (cacc k skel FR st).
  Local Notation cnew := (cnew k skel w lrate group FR st).

  Lemma cell_moved q : In q (allcells st (params skel)) ->
    let c := cell_at st q in let c' := cell_at cnew q in
    0 <= moved c c' /\
    moved c c' + lrate * (cell_kl c' - cell_kl c) <= lrate *
    sumf (fun i => w * crow q i * (nth i (form cnew q) 0 - nth i (form st q) 0)) (seq 0 (length (form st q))).
  Proof using Hnd Hw HFR T Hl.
    intros Hq c c'. destruct (Mx_Proofs.cell_gain k D skel w lrate group Hnd Hw Hl FR HFR st T q Hq) as (Lk & Wk & _).
    cbv zeta in Lk, Wk. fold c in Lk, Wk. fold c' in Lk, Wk.
    destruct q as [p i]. assert (Hq' := Hq). apply allcells_in in Hq'. destruct Hq' as [Hp Hi].
    assert (Hst := cnew_length k skel w lrate group FR st p).
    split.
    { apply (moved_nonneg k D). destruct (typed_cells k D st skel p i T Hp Hi) as [H|(n & H)].
      - left. split; [exact H|exact (Lk H)].
      - right. exists n. split; [exact H|exact (Wk n H)]. }
    assert (Ef : form st (p, i) = cell_form c) by (unfold form; cbn [fst snd]; now rewrite forms_nth).
    assert (Ef' : form cnew (p, i) = cell_form c') by (unfold form; cbn [fst snd]; rewrite forms_nth by lia; reflexivity).
    destruct (ctotal k D skel w Hnd Hw FR HFR st T (p, i) Hq) as (L1 & E1 & data & F & E2). cbv zeta in L1, E1, E2.
    destruct (existsb (Nat.eqb p) group) eqn:Eg.
    - set (stats := total w (length (form st (p, i))) p i [cacc]).
      assert (Ec : c' = cell_update lrate stats c).
      { unfold c', cell_at, Mx_Proofs.cnew, apply_step. cbn [fst snd]. rewrite Eg.
        rewrite (map2_nth _ _ _ _ 0%nat dc) by (rewrite ?seq_length; auto). rewrite seq_nth by auto.
        unfold stats. rewrite Ef. reflexivity. }
      cbn [fst snd] in E1, L1, E2. fold stats in E1, L1, E2. rewrite Ef in E2. fold c in E2.
      assert (Hin : length (cell_form c') = length (cell_form c) ->
         moved c c' <= lrate * (dot stats (cell_form c') - cell_kl c' - (dot stats (cell_form c) - cell_kl c)) ->
         moved c c' + lrate * (cell_kl c' - cell_kl c) <= lrate * sumf (fun i0 => w * crow (p, i) i0 *
           (nth i0 (form cnew (p, i)) 0 - nth i0 (form st (p, i)) 0)) (seq 0 (length (form st (p, i))))).
      { intros Hlen Hb.
        rewrite (sumf_ext _ (fun a => nth a stats 0 * (nth a (form cnew (p, i)) 0 - nth a (form st (p, i)) 0))).
        2:{ intros a Ha. apply in_seq in Ha. rewrite E1 by lia. reflexivity. }
        rewrite <- dot_diff by (rewrite L1, ?Ef', ?Ef, ?Hlen; reflexivity).
        rewrite Ef, Ef'. lra. }
      destruct (typed_cells k D st skel p i T Hp Hi) as [Lc|(n & Wc)].
      + change (nth i (st p) dc) with c in Lc. assert (A := Lk Lc).
        assert (B := leaf_gain k D lrate c data Lc Hl F). cbv zeta in B. rewrite <- E2, <- Ec in B.
        apply Hin; auto. now rewrite !(leaf_form_length k D).
      + change (nth i (st p) dc) with c in Wc. assert (A := Wk n Wc).
        assert (B := Gn_Proofs.weights_gain n D lrate c data Wc Hl F). cbv zeta in B. rewrite <- E2, <- Ec in B.
        apply Hin; auto. now rewrite !(weights_form_length n).
    - assert (Ec : c' = c) by (unfold c', c, cell_at, Mx_Proofs.cnew, apply_step; cbn [fst snd]; now rewrite Eg).
      rewrite Ef, Ef', Ec. rewrite (moved_self k D) by (destruct (typed_cells k D st skel p i T Hp Hi) as [|(n & Wc)]; eauto).
      rewrite sumf_zero; [lra|]. intros; ring.
  Qed.

  Lemma comps_moved : 0 <= total_moved skel st cnew /\
    total_moved skel st cnew + lrate * (total_kl skel cnew - total_kl skel st) <= lrate *
    sumf (fun yr => sumf (fun j => w * nth j (snd yr) 0 *
      (em_llh (suff k (fst yr)) (einst (forms cnew) (nth j (denote skel) e0)) -
       em_llh (suff k (fst yr)) (einst (forms st) (nth j (denote skel) e0)))) (seq 0 (size skel))) FR.
  Proof using Hnd Hw HFR T Hl.
    set (Q := allcells st (params skel)). assert (HQ : NoDup Q) by (now apply allcells_nodup).
    assert (EQ : allcells cnew (params skel) = Q).
    { unfold Q, allcells. rewrite !flat_map_concat_map. f_equal. apply map_ext. intros p. f_equal. f_equal. apply (cnew_length k skel w lrate group FR st). }
    rewrite (total_moved_cells _ _ _ (cnew_length k skel w lrate group FR st)).
    rewrite !total_kl_cells, EQ. fold Q.
    split; [apply sumf_nonneg; intros q Hq; now apply cell_moved|].
    apply Rle_trans with (lrate * sumf (fun q => sumf (fun i => w * crow q i * (nth i (form cnew q) 0 - nth i (form st q) 0))
      (seq 0 (length (form st q)))) Q).
    { rewrite <- sumf_minus, <- !sumf_scal_l, <- sumf_plus. apply sumf_le. intros q Hq. now apply cell_moved. }
    apply Rmult_le_compat_l; [lra|].
    apply Rle_trans with (sumf (fun yr => sumf (fun j => lin_gain Q st cnew (suff k (fst yr)) (nth j (denote skel) e0) (w * nth j (snd yr) 0))
      (seq 0 (size skel))) FR).
    - apply Req_le.
      rewrite (sumf_ext (fun yr => sumf (fun j => lin_gain _ _ _ _ _ _) _) (fun yr => sumf (fun q => sumf (fun j => sumf (fun i =>
        em_acc q (suff k (fst yr)) i (einst (forms st) (nth j (denote skel) e0)) (w * nth j (snd yr) 0) *
        (nth i (form cnew q) 0 - nth i (form st q) 0)) (seq 0 (length (form st q)))) (seq 0 (size skel))) Q)).
      2:{ intros yr _. unfold lin_gain. apply sumf_swap. }
      rewrite sumf_swap. apply sumf_ext. intros q _.
      rewrite (sumf_ext (fun yr => sumf (fun j => sumf (fun i => _) _) _) (fun yr => sumf (fun i => sumf (fun j =>
        em_acc q (suff k (fst yr)) i (einst (forms st) (nth j (denote skel) e0)) (w * nth j (snd yr) 0) *
        (nth i (form cnew q) 0 - nth i (form st q) 0)) (seq 0 (size skel))) (seq 0 (length (form st q))))).
      2:{ intros yr _. apply sumf_swap. }
      rewrite sumf_swap. apply sumf_ext. intros i _. unfold Mx_Proofs.crow. rewrite <- sumf_scal_l, <- sumf_scal_r.
      apply sumf_ext. intros yr _. rewrite <- sumf_scal_l, <- sumf_scal_r. apply sumf_ext. intros j _.
      rewrite (em_acc_scal _ _ _ _ (w * _)), (em_acc_scal _ _ _ _ (nth j (snd yr) 0)). ring.
    - apply sumf_le. intros yr Hin. destruct (fr_in k D skel FR HFR yr Hin) as (Hy & Lr & Fr). apply sumf_le. intros j Hj. apply in_seq in Hj.
      assert (T' := cnew_typed k D skel w lrate group Hnd Hw Hl FR HFR st T).
      rewrite <- (gain_acc k D _ st cnew (params skel) Q).
      + apply Rmult_le_compat_l.
        * apply Rmult_le_pos; [auto|]. apply (proj1 (Forall_forall _ _) Fr), nth_In. lia.
        * apply (gain_le k D _ st cnew (params skel)); apply (e_typed k D skel); auto; lia.
      + exact HQ.
      + intros p i Hp Hi. now apply allcells_in.
      + apply (e_typed k D skel); auto; lia.
      + apply (e_typed k D skel); auto; lia.
      + now apply suff_length.
  Qed.
End Comps.

Section Step.
  Variables (sort : list R -> list nat) (k : kind) (D : nat) (skel : mset) (w lrate : R) (uw : bool) (group : list nat).
  Variable frames : list lframe.
  Hypothesis Hsort : forall counts, sorts_desc counts (sort counts).
  Hypothesis Hnd : NoDup (params skel).
  Hypothesis Hw : 0 <= w.
  Hypothesis HF : Forall (lframe_ok k D skel) frames.

  Lemma mx_step_moved s : mix_ok k D skel s -> rate_ok (mx_weights s) lrate uw ->
    exists s', mx_step sort w lrate uw group skel frames s = Ok s' /\ mix_ok k D skel s' /\
      0 <= weights_moved (mx_weights s) (mx_weights s') /\ 0 <= total_moved skel (mx_comps s) (mx_comps s') /\
      mix_moved skel s s' <= lrate * (mx_bound w skel frames s' - mx_bound w skel frames s).
  Proof.
    intros G Hr. assert (G' := G). destruct G' as (T & Hn & W).
    unfold mx_step. rewrite (frames_ok k D) by auto. cbn [bindr]. rewrite !map_map. cbn [snd].
    destruct (frames_data k D skel s frames G HF) as (FR & E1 & E2 & E3 & E4).
    set (m := inst (forms (mx_comps s)) skel). assert (Sz : size m = size skel) by (unfold m; now apply (inst_size k D)).
    change (map (fun x : lframe => frame_resps skel s x) frames) with (map (frame_resps skel s) frames).
    rewrite <- E1, <- E2, Sz. fold (cacc k skel FR (mx_comps s)).
    fold (cnew k skel w lrate group FR (mx_comps s)). set (st' := cnew k skel w lrate group FR (mx_comps s)).
    set (c' := if uw then _ else _).
    set (s' := {| mx_weights := c'; mx_comps := st' |}). exists s'. split; [reflexivity|].
    assert (Hl : 0 <= lrate <= 1) by apply Hr.
    assert (T' : typed k D st' skel) by (unfold st'; now apply cnew_typed).
    destruct (comps_moved k D skel w lrate group Hnd Hw Hl FR E3 (mx_comps s) T) as [K0 K]. fold st' in K0, K.
    assert (Hrows : Forall (fun r => length r = size skel /\ Forall (fun v => 0 <= v) r) (map snd FR)).
    { apply Forall_map. eapply Forall_impl; [|exact E3]. intros yr (_ & A & B). split; [exact A|exact B]. }
    assert (KW : mxw_ok (size skel) c' /\ 0 <= weights_moved (mx_weights s) c' /\
      weights_moved (mx_weights s) c' + lrate * (weights_kl c' - weights_kl (mx_weights s)) <= lrate *
      sumf (fun j => mx_counts w (map snd FR) j * (elog_weight c' j - elog_weight (mx_weights s) j)) (seq 0 (size skel))).
    { unfold c'. destruct uw.
      - destruct (Mx_Proofs.weights_gain sort (size skel) w lrate (map snd FR) Hsort Hn Hw Hrows (mx_weights s) W Hr) as [W' K'].
        cbv zeta in W', K'. split; [exact W'|].
        destruct (mx_weights s) as [p q|p o q|g h] eqn:Ew.
        + destruct W as [Wp Wq]. cbn [mx_weights_update mx_weights_stats weights_moved weights_kl elog_weight] in *.
          assert (B := dir_moved (size skel) w lrate (map snd FR) Hn Hw Hrows p q Wp Wq Hl). cbv zeta in B.
          destruct W' as [_ Wq']. split; [apply (C40_dirichlet (size skel)); auto|].
          rewrite <- !(dir_kl_cross (size skel)) by auto. exact B.
        + cbn [mx_weights_update] in *. destruct (sb_update _ _ _ _ _) as [o' q'] eqn:Eu. cbn [weights_moved]. split; [lra|].
          destruct Hr as [_ Hr]. rewrite (Hr eq_refl). lra.
        + cbn [mx_weights_update weights_moved] in *. split; [lra|].
          destruct Hr as [_ Hr]. assert (El := Hr eq_refl). cbn in El. rewrite El in *. lra.
      - split; [exact W|]. rewrite sumf_zero by (intros; ring).
        assert (E0 : weights_moved (mx_weights s) (mx_weights s) = 0).
        { destruct (mx_weights s) as [p q| |]; cbn [weights_moved]; auto. destruct W. apply (C40_dirichlet (size skel) q q); auto. }
        rewrite E0. lra. }
    destruct KW as (W' & KW0 & KW).
    assert (G' : mix_ok k D skel s') by (split; [exact T'|]; split; [exact Hn|exact W']). split; [exact G'|].
    split; [exact KW0|]. split; [exact K0|].
    unfold mix_moved, mx_bound. cbn [mx_weights mx_comps s'].
    assert (FG : w * sumf (fun f => sumf (fun j => nth j (frame_resps skel s f) 0 * (mx_joint skel s' (fst f) j - mx_joint skel s (fst f) j)) (seq 0 (size skel))) frames
      <= w * (sumf (frame_bound skel s') frames - sumf (frame_bound skel s) frames)).
    { apply Rmult_le_compat_l; [auto|]. rewrite <- sumf_minus. apply sumf_le. intros f Hf.
      apply (frame_gain k D); auto. now apply (proj1 (Forall_forall _ _) HF). }
    assert (E : w * sumf (fun f => sumf (fun j => nth j (frame_resps skel s f) 0 * (mx_joint skel s' (fst f) j - mx_joint skel s (fst f) j)) (seq 0 (size skel))) frames =
      sumf (fun j => mx_counts w (map snd FR) j * (elog_weight c' j - elog_weight (mx_weights s) j)) (seq 0 (size skel)) +
      sumf (fun yr => sumf (fun j => w * nth j (snd yr) 0 *
      (em_llh (suff k (fst yr)) (einst (forms st') (nth j (denote skel) e0)) -
       em_llh (suff k (fst yr)) (einst (forms (mx_comps s)) (nth j (denote skel) e0)))) (seq 0 (size skel))) FR).
    { rewrite <- (E4 (fun x r => sumf (fun j => nth j r 0 * (mx_joint skel s' x j - mx_joint skel s x j)) (seq 0 (size skel)))).
      rewrite (sumf_ext (fun j => mx_counts _ _ j * _) (fun j => sumf (fun yr => w * nth j (snd yr) 0 * (elog_weight c' j - elog_weight (mx_weights s) j)) FR)).
      2:{ intros j _. unfold mx_counts. rewrite sumf_map. rewrite sumf_scal_r, sumf_scal_l. reflexivity. }
      symmetry. rewrite sumf_swap. rewrite <- sumf_plus. symmetry. rewrite <- sumf_scal_l. apply sumf_ext. intros yr _.
      rewrite <- sumf_plus, <- sumf_scal_l. apply sumf_ext. intros j Hj. apply in_seq in Hj.
      unfold mx_joint, mx_ems. cbn [mx_weights mx_comps s'].
      rewrite (inst_denote k D st'), (inst_denote k D (mx_comps s)) by auto.
      rewrite !(map_nth_lt _ _ _ e0) by (rewrite denote_length; lia). ring. }
    apply (Rmult_le_compat_l lrate) in FG; [|lra]. rewrite E in FG. lra.
  Qed.
End Step.

(** C169: training an HMM on all the paths, the best paths or given paths. *)
From Coq Require Import Reals List Arith Bool Lia Lra.
From Verif Require Import Prelude Vec Lgamma FB_Model FB_Spec FB_Proofs FB_Viterbi FB_Props Edit_Model Dec_Model Set_Model Set_Spec Set_Proofs Set_Index
  HMM_Model HMM_Spec HMM_Proofs HMM_Props Dist_Model Dist_Spec Dist_Proofs NG_Proofs KL_Proofs Dist_Props Mat NW_Model NW_Spec NW_Proofs NW_KL NW_Props
  Vt_Model Vt_Spec Vt_Proofs Vt_Props Vh_Model Vh_Spec Vh_Proofs.
Import ListNotations.
Local Open Scope R_scope.

(** One step succeeds, keeps the parameters proper and does not decrease the
    bound, whatever the inference of each utterance. *)
Theorem C169_step : forall amax k D scale w lrate group skel utts st,
  is_argmax amax -> 0 <= scale -> 0 <= w -> 0 <= lrate <= 1 -> NoDup (params skel) ->
  typed k D st skel -> Forall (hutt_ok k D skel) utts ->
  exists st', htrain_step amax scale w lrate group skel utts st = Some st' /\
    typed k D st' skel /\ hbound scale w skel utts st <= hbound scale w skel utts st'.
Proof.
  intros amax k D scale w lrate group skel utts st Ha Hs Hw Hl Hnd T HU.
  destruct (hstep amax k D scale skel Ha Hs Hnd st utts w lrate group T HU Hw Hl) as (zs & _ & _ & E & T' & B). eauto.
Qed.

Theorem C169_training : forall amax k D scale w steps skel utts st,
  is_argmax amax -> 0 <= scale -> 0 <= w -> Forall (fun lg => 0 <= fst lg <= 1) steps -> NoDup (params skel) ->
  typed k D st skel -> Forall (hutt_ok k D skel) utts ->
  exists st', htrain amax scale w steps skel utts st = Some st' /\
    typed k D st' skel /\ hbound scale w skel utts st <= hbound scale w skel utts st'.
Proof.
  intros amax k D scale w steps skel utts st Ha Hs Hw Hl Hnd. revert st.
  induction Hl as [|[lrate group] steps Hl Hls IH]; intros st T HU.
  - exists st. split; [reflexivity|]. split; [exact T|lra].
  - destruct (C169_step amax k D scale w lrate group skel utts st Ha Hs Hw Hl Hnd T HU) as (s1 & E1 & T1 & B1).
    destruct (IH s1 T1 HU) as (s2 & E2 & T2 & B2). exists s2. cbn [htrain]. rewrite E1.
    split; [exact E2|]. split; [exact T2|lra].
Qed.

(** What a step does: the parameters of the group move to the prior plus the
    statistics of the paths of each utterance: all the paths with their posterior
    probabilities, one of the best paths, or the given path. *)
Theorem C169_update : forall amax k D scale w lrate group skel utts st st',
  is_argmax amax -> 0 <= scale -> 0 <= w -> 0 <= lrate <= 1 -> NoDup (params skel) ->
  typed k D st skel -> Forall (hutt_ok k D skel) utts ->
  htrain_step amax scale w lrate group skel utts st = Some st' ->
  exists ds, Forall2 (collected scale skel st) utts ds /\
  forall p i, In p (params skel) -> (i < length (st p))%nat ->
  let c := nth i (st p) dc in
  length (st' p) = length (st p) /\
  (~ In p group -> nth i (st' p) dc = c) /\
  (In p group -> exists stats,
     nth i (st' p) dc = cell_update lrate stats c /\ length stats = length (cell_form c) /\
     forall j, (j < length (cell_form c))%nat ->
       nth j stats 0 = w * sumf (fun ud : (utt * infer) * list (R * list nat) =>
         sumf (fun ap : R * list nat => fst ap * (scale * path_stats (p, i) j (utt_ems skel st (fst (fst ud))) (u_stats (fst (fst ud))) (snd ap)))
           (snd ud)) (combine utts ds)).
Proof.
  intros amax k D scale w lrate group skel utts st st' Ha Hs Hw Hl Hnd T HU E.
  destruct (hstep amax k D scale skel Ha Hs Hnd st utts w lrate group T HU Hw Hl) as (zs & Eu & F & E' & _).
  rewrite E in E'. injection E' as ->. exists (map snd zs). split.
  { rewrite Eu. clear - F. induction F as [|z zs (_ & C & _) F IH]; constructor; auto. }
  intros p i Hp Hi c. assert (Hq : In (p, i) (allcells st (params skel))) by (now apply allcells_in).
  destruct (all_data k D scale skel Hs st zs w (p, i) T Hw F Hq) as (L1 & E1 & _).
  assert (Ef : form st (p, i) = cell_form c) by (unfold form; cbn [fst snd]; now rewrite forms_nth).
  rewrite Ef in E1, L1. cbn [fst snd] in E1, L1. split; [|split].
  - unfold apply_step. destruct (existsb _ group); [|reflexivity]. rewrite map2_length, seq_length. lia.
  - intros Hg. unfold apply_step. destruct (existsb (Nat.eqb p) group) eqn:Eg; [|reflexivity].
    apply existsb_exists in Eg. destruct Eg as (x & Hx & Ex). apply Nat.eqb_eq in Ex. subst x. contradiction.
  - intros Hg. exists (Vt_Model.total w (length (cell_form c)) p i (map (fun z => snd (fst z)) zs)).
    split; [|split; [exact L1|]].
    + unfold apply_step. replace (existsb (Nat.eqb p) group) with true.
      * rewrite (map2_nth _ _ _ _ 0%nat dc) by (rewrite ?seq_length; auto). rewrite seq_nth by auto. reflexivity.
      * symmetry. apply existsb_exists. exists p. split; [auto|apply Nat.eqb_refl].
    + intros j Hj. rewrite E1 by auto. unfold tot_of. f_equal. rewrite Eu. clear.
      induction zs as [|z zs IH]; [reflexivity|]. cbn [map combine]. rewrite !sumf_cons, IH. reflexivity.
Qed.

(** What is reported *)
Lemma rsum_cons x l : rsum (x :: l) = x + rsum l.
Proof. reflexivity. Qed.

Lemma path_value n es scale stats path : length es = n -> length path = length stats -> Forall (fun s => (s < n)%nat) path ->
  exists l, all_some (map2 (frame_value n) (map (fun x => map (fun e => scale * em_llh x e) es) stats) (map unit_num path)) = Some l /\
    rsum l = path_loglik scale es stats path.
Proof.
  intros Le. revert path. induction stats as [|x stats IH]; intros [|s path] Hl Hf; try discriminate.
  - exists []. split; reflexivity.
  - inversion Hf as [|? ? Hs Hf']; subst. destruct (IH path ltac:(now injection Hl) Hf') as (l & E & V).
    exists (scale * em_llh x (nth s es e0) :: l). cbn [map map2 all_some]. unfold frame_value at 1.
    rewrite nums_unit, E. split.
    + f_equal. f_equal. rewrite (rsum_map2_index _ _ _ 0 0) by (unfold unit_list; now rewrite !map_length, seq_length).
      rewrite map_length. rewrite (sumf_seq_single _ (length es) s Hs).
      * rewrite (map_nth_lt _ _ _ e0) by auto. unfold unit_list. rewrite (map_nth_lt _ _ _ 0%nat), seq_nth by (rewrite ?seq_length; auto).
        cbn [Nat.add]. rewrite Nat.eqb_refl. ring.
      * intros j Hj Hne. unfold unit_list. rewrite (map_nth_lt _ _ _ 0%nat), seq_nth by (rewrite ?seq_length; auto).
        cbn [Nat.add]. apply Nat.eqb_neq in Hne. rewrite Hne. ring.
    + unfold path_loglik. cbn [length seq]. rewrite sumf_cons, <- seq_shift, sumf_map. cbn [nth]. rewrite rsum_cons.
      f_equal. rewrite V. reflexivity.
Qed.

Definition hard (um : utt * infer) : Prop := snd um <> Soft.

(** On given paths what is reported is the bound; on best paths it leaves out
    their prior probabilities. *)
Theorem C169_objective : forall amax k D scale w skel utts st,
  is_argmax amax -> 0 <= scale -> NoDup (params skel) -> typed k D st skel ->
  Forall (hutt_ok k D skel) utts -> Forall hard utts ->
  exists ps, Forall2 (fun um p => collected scale skel st um [(1, p)]) utts ps /\
  hobjective amax scale w skel utts st =
    Some (hbound scale w skel utts st - w * sumf (fun up : (utt * infer) * list nat =>
      match snd (fst up) with
      | Viterbi => ln (prior_prob (u_graph (fst (fst up))) (length (u_stats (fst (fst up)))) (snd up))
      | _ => 0
      end) (combine utts ps)).
Proof.
  intros amax k D scale w skel utts st Ha Hs Hnd T HU Hh.
  assert (G : exists ps vs, Forall2 (fun um p => collected scale skel st um [(1, p)]) utts ps /\
    all_some (map (hutt_value amax scale (inst (forms st) skel)) utts) = Some vs /\
    rsum vs = sumf (utt_score scale skel st) utts - sumf (fun up : (utt * infer) * list nat =>
      match snd (fst up) with
      | Viterbi => ln (prior_prob (u_graph (fst (fst up))) (length (u_stats (fst (fst up)))) (snd up))
      | _ => 0
      end) (combine utts ps)).
  { induction HU as [|[u mode] us U HU IH].
    - exists [], []. split; [constructor|]. split; [reflexivity|]. cbn [combine]. rewrite !sumf_nil. cbn. lra.
    - inversion Hh as [|? ? H1 H2]; subst. destruct (IH H2) as (ps & vs & F & E & V). unfold hard in H1. cbn [snd] in H1.
      destruct (hard_path amax k D scale skel Ha st u mode T U H1) as (path & Hc & Hp & Hf & Hlp & Hmode).
      assert (Hmode' : mode = Aligned path \/ mode = Viterbi /\ best_path amax (u_graph u) (frames scale (utt_ems skel st u) (u_stats u)) = Ok path) by tauto.
      assert (U0 := proj1 U). assert (Er := hard_run amax k D scale skel st u mode path T U0 Hmode' Hf Hlp).
      assert (Le : length (utt_ems skel st u) = cg_n (u_graph u)) by (unfold utt_ems; rewrite map_length; apply U0).
      destruct (path_value (cg_n (u_graph u)) (utt_ems skel st u) scale (u_stats u) path Le Hlp) as (l & El & Vl).
      { eapply Forall_impl; [|exact Hf]. cbv beta. tauto. }
      exists (path :: ps), (rsum l :: vs). split; [constructor; auto|]. cbn [map all_some]. unfold hutt_value at 1. rewrite Er, El, E.
      split; [reflexivity|]. rewrite rsum_cons. cbn [combine]. rewrite !sumf_cons, V, Vl. cbn [fst snd]. unfold utt_score at 2.
      destruct Hmode as [->|[-> [_ Hbest]]]; [ring|].
      set (ls := frames scale (utt_ems skel st u) (u_stats u)) in *.
      assert (P1 := utt_evidence k D scale skel st u T U0). fold ls in P1.
      assert (Hpos : 0 < path_prob (u_graph u) ls path).
      { destruct (Rle_lt_dec (path_prob (u_graph u) ls path) 0) as [N|]; [|auto]. exfalso.
        assert (Z : evidence (u_graph u) ls <= 0); [|lra]. unfold evidence, ls. rewrite frames_length. fold ls.
        rewrite <- (sumf_zero (fun _ : list nat => 0) (paths (cg_n (u_graph u)) (length (u_stats u)))) by auto. apply sumf_le.
        intros p' Hp'. eapply Rle_trans; [now apply Hbest|exact N]. }
      rewrite (largest_is _ _ path Hp (Rlt_le _ _ Hpos) Hbest).
      assert (Epp : path_prob (u_graph u) ls path = prior_prob (u_graph u) (length (u_stats u)) path * exp (path_loglik scale (utt_ems skel st u) (u_stats u) path))
        by (now apply path_prob_frames).
      assert (Hpr : 0 < prior_prob (u_graph u) (length (u_stats u)) path).
      { rewrite Epp in Hpos. assert (Y := path_prob_nonneg (u_graph u) (repeat (fun _ => Fin 0) (length (u_stats u))) path).
        change (0 <= prior_prob (u_graph u) (length (u_stats u)) path) in Y. destruct Y as [Y|Y]; [exact Y|]. rewrite <- Y in Hpos. lra. }
      rewrite Epp, ln_mult, ln_exp by (auto using exp_pos). ring. }
  destruct G as (ps & vs & F & E & V). exists ps. split; [exact F|]. unfold hobjective. rewrite E. f_equal.
  rewrite V. unfold hbound, total_kl.
  change (rsum (map (fun p => rsum (map cell_kl (st p))) (params skel))) with (sumf (fun p => sumf cell_kl (st p)) (params skel)). ring.
Qed.

Theorem C169_objective_on_given_paths : forall amax k D scale w skel utts st,
  is_argmax amax -> 0 <= scale -> NoDup (params skel) -> typed k D st skel ->
  Forall (hutt_ok k D skel) utts -> Forall (fun um : utt * infer => exists p, snd um = Aligned p) utts ->
  hobjective amax scale w skel utts st = Some (hbound scale w skel utts st).
Proof.
  intros amax k D scale w skel utts st Ha Hs Hnd T HU Hp.
  destruct (C169_objective amax k D scale w skel utts st Ha Hs Hnd T HU) as (ps & F & ->).
  - eapply Forall_impl; [|exact Hp]. intros um (p & E). unfold hard. rewrite E. discriminate.
  - f_equal. rewrite (sumf_zero _ (combine utts ps)); [ring|]. intros [um p] Hin. cbn [fst snd].
    apply in_combine_l in Hin. destruct (proj1 (Forall_forall _ _) Hp um Hin) as (p' & ->). reflexivity.
Qed.

(** The model of C163 on one utterance with its alignment, on the same
    utterance with its best path, and on all its paths *)
Example C169_ex : forall amax, is_argmax amax ->
  let utts := [(ex_utt, Viterbi); (ex_utt, Aligned [0; 0; 1]%nat); (ex_utt, Soft)] in
  exists st', htrain amax 1 1 [(1, [0%nat]); (1/2, [1%nat]); (1, [0; 1]%nat)] ex_skel utts ex_st = Some st' /\
    hbound 1 1 ex_skel utts ex_st <= hbound 1 1 ex_skel utts st'.
Proof.
  intros amax Ha utts. destruct C163_ex as (N & T & U & _).
  destruct (C169_training amax KDiag 1 1 1 [(1, [0%nat]); (1/2, [1%nat]); (1, [0; 1]%nat)] ex_skel utts ex_st) as (st' & E & _ & B).
  - exact Ha.
  - lra.
  - lra.
  - constructor; [cbn [fst]; lra|]. constructor; [cbn [fst]; lra|]. constructor; [cbn [fst]; lra|constructor].
  - exact N.
  - exact T.
  - constructor; [split; [exact U|cbn; lia]|]. constructor; [split; [exact U|]|].
    + split; [reflexivity|]. constructor; [cbn; lia|]. constructor; [cbn; lia|]. constructor; [cbn; lia|constructor].
    + constructor; [split; [exact U|exact I]|constructor].
  - exists st'. split; [exact E|exact B].
Qed.

(** Given a path, what is reported does not decrease. *)
Example C169_ex_reported : forall amax, is_argmax amax ->
  let utts := [(ex_utt, Aligned [0; 0; 1]%nat)] in
  exists st' v v', htrain_step amax 1 1 1 [1%nat] ex_skel utts ex_st = Some st' /\
    hobjective amax 1 1 ex_skel utts ex_st = Some v /\ hobjective amax 1 1 ex_skel utts st' = Some v' /\ v <= v'.
Proof.
  intros amax Ha utts. destruct C163_ex as (N & T & U & _).
  assert (HU : Forall (hutt_ok KDiag 1 ex_skel) utts).
  { constructor; [split; [exact U|]|constructor]. split; [reflexivity|].
    constructor; [cbn; lia|]. constructor; [cbn; lia|]. constructor; [cbn; lia|constructor]. }
  destruct (C169_step amax KDiag 1 1 1 1 [1%nat] ex_skel utts ex_st Ha) as (st' & E & T' & B); auto; try lra.
  exists st', (hbound 1 1 ex_skel utts ex_st), (hbound 1 1 ex_skel utts st'). split; [exact E|].
  assert (P : Forall (fun um : utt * infer => exists p, snd um = Aligned p) utts) by (constructor; [eexists; reflexivity|constructor]).
  split; [apply (C169_objective_on_given_paths amax KDiag 1); auto; lra|].
  split; [apply (C169_objective_on_given_paths amax KDiag 1); auto; lra|exact B].
Qed.

Print Assumptions C169_step.
Print Assumptions C169_training.
Print Assumptions C169_update.
Print Assumptions C169_objective.
Print Assumptions C169_objective_on_given_paths.

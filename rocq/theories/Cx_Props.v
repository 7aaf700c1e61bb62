(** C189: the training of the mixtures converges. *)
From Coq Require Import Reals List Arith Bool Lia Lra.
From Verif Require Import Prelude Vec Lgamma FB_Model FB_Spec FB_Proofs Edit_Model Dec_Model Set_Model Set_Spec Set_Proofs
  HMM_Model HMM_Spec HMM_Proofs Dist_Model Dist_Spec Mat NW_Model NW_Spec
  SB_Model SB_Spec Sk_Model Sk_Spec Sk_Props Vt_Model Vt_Spec Vt_Proofs Vt_Props Vl_Model Vl_Spec Vl_Proofs Mx_Model Mx_Spec Mx_Proofs Mx_Props
  Cv_Spec Cv_Proofs Cv_Props Cw_Proofs.
Import ListNotations.
Local Open Scope R_scope.

Lemma mx_frames_ok k D skel frames : Forall (lframe_ok k D skel) frames ->
  exists ys, map fst frames = map (suff k) ys /\ Forall (frame_ok k D) ys.
Proof.
  induction 1 as [|f fs ((y & Ey & Fy) & _) _ (ys & E & F)]; [exists []; split; [reflexivity|constructor]|].
  exists (y :: ys). cbn [map]. rewrite Ey, E. split; [reflexivity|]. now constructor.
Qed.

Section Frame.
  Variables (k : kind) (D : nat) (skel : mset) (s : mixst) (Q : list (nat * nat)).
  Hypothesis G : mix_ok k D skel s.
  Hypothesis HQ : forall p i, In p (leafs skel) -> (i < length (mx_comps s p))%nat -> In (p, i) Q.
  Let C := sumf ecst (denote skel).

  Lemma joint_ub x j : (j < size skel)%nat -> mx_joint skel s x j <= C + spike (mx_comps s) Q x.
  Proof.
    intros Hj. destruct G as (T & Hn & W). unfold mx_joint, mx_ems.
    assert (A := elog_weight_neg _ _ j W Hj).
    rewrite (inst_denote k D) by exact T. rewrite (map_nth_lt _ _ _ e0) by (rewrite denote_length; exact Hj).
    assert (Hin : In (nth j (denote skel) e0) (denote skel)) by (apply nth_In; rewrite denote_length; exact Hj).
    assert (B := em_upper k D (mx_comps s) (params skel) (leafs skel) Q x (nth j (denote skel) e0)
      (proj1 (Forall_forall _ _) (typed_etyped k D _ skel T) _ Hin) (proj1 (Forall_forall _ _) (typed_ein k D _ skel T) _ Hin) HQ).
    assert (E : ecst (nth j (denote skel) e0) <= C) by (apply (sumf_ge_term ecst); [intros; apply ecst_nonneg|exact Hin]). lra.
  Qed.

  Lemma frame_ub f : lframe_ok k D skel f ->
    frame_bound skel s f <= Rabs (ln (INR (size skel))) + C + spike (mx_comps s) Q (fst f).
  Proof.
    intros (_ & Hl). unfold frame_bound. assert (Ab := Rabs_pos (ln (INR (size skel)))).
    destruct (snd f) as [j|]; [pose proof (joint_ub (fst f) j Hl); lra|].
    assert (Hn : (0 < size skel)%nat) by apply G. assert (Hnr : 0 < INR (size skel)) by (now apply lt_0_INR).
    set (M := C + spike (mx_comps s) Q (fst f)).
    eapply Rle_trans; [apply (ln_mono _ (INR (size skel) * exp M))|].
    - apply (sumf_pos _ _ 0%nat); [intros; left; apply exp_pos|apply in_seq; lia|apply exp_pos].
    - rewrite <- (seq_length (size skel) 0) at 2. rewrite <- sumf_const. apply sumf_le. intros j Hj. apply in_seq in Hj.
      destruct (joint_ub (fst f) j ltac:(lia)) as [L|L]; [left; now apply exp_increasing|right; now rewrite L].
    - rewrite ln_mult by (auto; apply exp_pos). rewrite ln_exp. pose proof (Rle_abs (ln (INR (size skel)))). unfold M. lra.
  Qed.
End Frame.

Theorem C189_bounded : forall k D w skel frames s0,
  0 <= w -> mix_ok k D skel s0 -> Forall (lframe_ok k D skel) frames ->
  exists B, forall s, mix_ok k D skel s -> priors_kept skel (mx_comps s0) (mx_comps s) ->
    mx_bound w skel frames s <= B.
Proof.
  intros k D w skel frames s0 Hw (T0 & _) HF. set (st0 := mx_comps s0) in *. set (Q := allcells st0 (leafs skel)).
  destruct (mx_frames_ok k D skel frames HF) as (ys & Ey & Fy).
  destruct (cells_ub k D w skel st0 ys Hw T0 Fy Q) as (B & HB).
  { intros [p i] Hq. now apply allcells_in in Hq. }
  exists (w * (INR (length frames) * (Rabs (ln (INR (size skel))) + sumf ecst (denote skel))) + B).
  intros s G Kp. assert (G' := G). destruct G' as (T & _ & W). set (st := mx_comps s) in *. specialize (HB st T Kp).
  assert (HQ : forall p i, In p (leafs skel) -> (i < length (st p))%nat -> In (p, i) Q).
  { intros p i Hp Hi. apply allcells_in. split; [exact Hp|]. rewrite <- (same_length skel st0 st); auto. now apply leafs_incl. }
  assert (HE : sumf (frame_bound skel s) frames <=
    INR (length frames) * (Rabs (ln (INR (size skel))) + sumf ecst (denote skel)) + sumf (spike st Q) (map fst frames)).
  { rewrite sumf_map, <- (sumf_const _ frames), <- sumf_plus. apply sumf_le. intros f Hf.
    apply (frame_ub k D); auto. exact (proj1 (Forall_forall _ _) HF f Hf). }
  assert (HK : sumf (fun q => cell_kl (cell_at st q)) Q <= total_kl skel st).
  { unfold total_kl. eapply Rle_trans; [|apply (leafs_sum (fun p => sumf cell_kl (st p)))].
    - right. unfold Q, allcells. rewrite sumf_flat_map. apply sumf_ext. intros p Hp. rewrite sumf_map. unfold cell_at. cbn [fst snd].
      rewrite <- (same_length skel st0 st) by (auto; now apply leafs_incl). apply (sumf_seq_nth cell_kl).
    - intros p Hp. apply sumf_nonneg. intros c Hc. destruct (In_nth _ _ dc Hc) as (i & Hi & <-).
      destruct (typed_cells k D st skel p i T Hp Hi) as [L|(n & Wc)]; [now apply (cell_kl_nonneg k D)|now apply (weights_kl_nonneg n)]. }
  assert (N := weights_div_nonneg _ _ W).
  rewrite sumf_minus, sumf_scal_l in HB. rewrite <- sumf_swap in HB.
  unfold mx_bound. fold st. rewrite Ey, sumf_map in HE. unfold spike in HE.
  apply (Rmult_le_compat_l w) in HE; [|exact Hw]. lra.
Qed.

Lemma mx_step_kept sort w lrate uw group skel frames s s' :
  mx_step sort w lrate uw group skel frames s = Ok s' -> priors_kept skel (mx_comps s) (mx_comps s').
Proof.
  intros E. unfold mx_step in E. destruct (mx_frames _ _ _) as [vr|]; [|discriminate]. cbn [bindr] in E. injection E as <-. apply apply_step_kept.
Qed.

Lemma mx_snoc sort w t x skel frames s :
  mx_train sort w (t ++ [x]) skel frames s =
  bindr (mx_train sort w t skel frames s) (fun s' => mx_step sort w (fst (fst x)) (snd (fst x)) (snd x) skel frames s').
Proof.
  revert s. induction t as [|[[r uw] g] t IH]; intros s; cbn [app mx_train].
  - destruct x as [[r uw] g]. cbn [fst snd bindr]. now destruct (mx_step _ _ _ _ _ _ _ _).
  - destruct (mx_step _ _ _ _ _ _ _ _); cbn [bindr]; auto.
Qed.

Theorem C189_converges : forall sort k D w (steps : nat -> R * bool * list nat) skel frames s0,
  (forall counts, sorts_desc counts (sort counts)) -> NoDup (params skel) -> 0 <= w ->
  mix_ok k D skel s0 -> Forall (lframe_ok k D skel) frames ->
  (forall n, rate_ok (mx_weights s0) (fst (fst (steps n))) (snd (fst (steps n)))) ->
  exists (run : nat -> mixst) (L : R),
    (forall n, mx_train sort w (map steps (seq 0 n)) skel frames s0 = Ok (run n)) /\
    (forall n, mx_bound w skel frames (run n) <= mx_bound w skel frames (run (S n)) <= L) /\
    Un_cv (fun n => mx_bound w skel frames (run n)) L.
Proof.
  intros sort k D w steps skel frames s0 Hso Hnd Hw G0 HF R0.
  destruct (C189_bounded k D w skel frames s0 Hw G0 HF) as (B & HB).
  set (st := fun n s => mx_step sort w (fst (fst (steps n))) (snd (fst (steps n))) (snd (steps n)) skel frames s).
  destruct (run_limit (fun s => mix_ok k D skel s /\ priors_kept skel (mx_comps s0) (mx_comps s) /\
      forall n, rate_ok (mx_weights s) (fst (fst (steps n))) (snd (fst (steps n))))
    (mx_bound w skel frames) (fun n s => match st n s with Ok s' => Some s' | Err _ => None end) B s0)
    as (run & L & E0 & HS & _ & HL & HC).
  - split; [exact G0|]. split; [apply priors_kept_refl|exact R0].
  - intros n s (G & K & Rt).
    destruct (C167_step sort k D w (fst (fst (steps n))) (snd (fst (steps n))) (snd (steps n)) skel frames s Hso Hnd Hw G HF (Rt n)) as (s' & E & G' & Hle).
    exists s'. unfold st. rewrite E. split; [reflexivity|]. split; [|exact Hle]. split; [exact G'|].
    split; [exact (priors_kept_trans _ _ _ _ K (mx_step_kept _ _ _ _ _ _ _ _ _ E))|].
    intros m. eapply rate_kind; [exact (weights_kind _ _ _ _ _ _ _ _ _ E)|apply Rt].
  - intros s (G & K & _). now apply HB.
  - exists run, L. split; [|split; [exact HL|exact HC]].
    induction n as [|n IH]; [cbn; now rewrite E0|]. rewrite seq_S, map_app. cbn [map Nat.add]. rewrite mx_snoc, IH. cbn [bindr].
    specialize (HS n). cbv beta in HS. unfold st in HS. destruct (mx_step _ _ _ _ _ _ _ _); congruence.
Qed.

(** The mixtures of C167, trained for ever. *)
Example C189_ex : forall sort, (forall counts, sorts_desc counts (sort counts)) ->
  forall c, In c [WDir [1; 1] [1; 1]; WStick [(1, 1); (1, 1)] [0; 1]%nat [(1, 1); (1, 1)]] ->
  let s := m_mix c in
  exists (run : nat -> mixst) (L : R),
    (forall n, mx_train sort 1 (map (fun i => (1, Nat.even i, [1%nat])) (seq 0 n)) m_skel m_frames s = Ok (run n)) /\
    (forall n, mx_bound 1 m_skel m_frames (run n) <= mx_bound 1 m_skel m_frames (run (S n)) <= L) /\
    Un_cv (fun n => mx_bound 1 m_skel m_frames (run n)) L.
Proof.
  intros sort Hs c Hc s.
  assert (Hng : forall m, ng_ok 1 (ex_ng m)).
  { intros m. unfold ng_ok, ex_ng. cbn [ng_mean ng_rates ng_scale ng_shape length].
    split; [reflexivity|]. split; [reflexivity|]. split; [lra|]. split; [lra|]. constructor; [lra|constructor]. }
  assert (G : mix_ok KDiag 1 m_skel s).
  { split; [|split; [cbn; lia|]].
    - split; [reflexivity|]. split; [reflexivity|]. constructor; [split; apply Hng|]. constructor; [split; apply Hng|constructor].
    - cbn [size m_skel length]. destruct Hc as [<-|[<-|[]]].
      + split; apply l_dir; lra.
      + split; [apply order_01|]. split; [reflexivity|]. split.
        * constructor; [cbn; lra|]. constructor; [cbn; lra|constructor].
        * exists (1, 1). cbn [fst snd]. split; [lra|]. split; [lra|reflexivity]. }
  assert (F : Forall (lframe_ok KDiag 1 m_skel) m_frames).
  { unfold m_frames. apply Forall_map, Forall_forall. intros x _. split; [|exact I]. exists [x].
    split; [reflexivity|]. split; [reflexivity|exact I]. }
  assert (Nd : NoDup (params m_skel)) by (constructor; [intros []|constructor]).
  assert (Hr : forall uw, rate_ok (mx_weights s) 1 uw).
  { intros uw. split; [lra|]. intros _. destruct (mx_weights s); auto. }
  apply (C189_converges sort KDiag 1 1 (fun i => (1, Nat.even i, [1%nat])) m_skel m_frames s Hs Nd ltac:(lra) G F).
  intros n. apply Hr.
Qed.

Print Assumptions C189_bounded.
Print Assumptions C189_converges.

(** C199: what a step of the training of a phone-loop gains is at least how far
    it moves the posteriors, so the posteriors settle. *)
From Coq Require Import Reals List Arith Bool Lia Lra.
From Verif Require Import Prelude Vec Lgamma FB_Model FB_Spec Edit_Model Dec_Model Set_Model Set_Spec HMM_Model Dist_Model Dist_Spec Mat NW_Model
  SB_Model SB_Spec Sk_Model Sk_Spec Vt_Model Vt_Spec Vt_Proofs Vt_Props Gn_Spec Gn_Proofs
  Vl_Model Vl_Spec Vl_Proofs Vl_Props Mx_Model Mx_Spec Mx_Proofs Mx_Props Gx_Spec Gx_Proofs
  Pw_Model Pw_Spec Pw_Proofs Pw_Props Cw_Props Gp_Spec Gp_Proofs.
Import ListNotations.
Local Open Scope R_scope.

(** The divergences KL(old posterior || new posterior) of the Dirichlet weights
    and of the emissions are not negative.  Their sum is at most the learning
    rate times the gain, the gain being that of the bound plus what the expected
    first phones, which the graph does not draw with the weights, give. *)
Theorem C199_gain : forall sort amax k D scale w lrate uw group l skel utts s,
  (forall counts, sorts_desc counts (sort counts)) -> 0 <= scale -> 0 <= w -> NoDup (params skel) -> loop_ok l ->
  pw_good k D l skel s -> Forall (pw_utt_ok k D l skel s) utts -> rate_ok (pw_weights s) lrate uw ->
  exists s', pw_step sort amax scale w lrate uw group l skel utts s = Some s' /\
    0 <= weights_moved (pw_weights s) (pw_weights s') /\ 0 <= total_moved skel (pw_pars s) (pw_pars s') /\
    loop_moved skel s s' <= lrate * (pw_bound scale w l skel utts s' +
      w * sumf (fun x => sumf (fun j => pw_first_count scale l skel s x j *
        (elog_weight (pw_weights s') j - elog_weight (pw_weights s) j)) (seq 0 (length (pl_starts l)))) utts
      - pw_bound scale w l skel utts s).
Proof.
  intros sort amax k D scale w lrate uw group l skel utts s Hsort Hs Hw Hnd Hlo HG HU Hr.
  exists (pw_next sort amax scale l skel w lrate uw group utts s).
  split; [now apply (pw_step_eq sort amax k D)|]. now apply (pw_next_moved sort amax k D).
Qed.

(** When the weights are not trained, or all the utterances have alignments *)
Theorem C199_aligned : forall sort amax k D scale w lrate uw group l skel utts s,
  (forall counts, sorts_desc counts (sort counts)) -> 0 <= scale -> 0 <= w -> NoDup (params skel) -> loop_ok l ->
  pw_good k D l skel s -> Forall (pw_utt_ok k D l skel s) utts -> rate_ok (pw_weights s) lrate uw ->
  uw = false \/ Forall (fun x => lu_ali x <> None) utts ->
  exists s', pw_step sort amax scale w lrate uw group l skel utts s = Some s' /\
    0 <= loop_moved skel s s' <= lrate * (pw_bound scale w l skel utts s' - pw_bound scale w l skel utts s).
Proof.
  intros sort amax k D scale w lrate uw group l skel utts s Hsort Hs Hw Hnd Hlo HG HU Hr Hor.
  destruct (C199_gain sort amax k D scale w lrate uw group l skel utts s) as (s' & E & P1 & P2 & B); auto.
  exists s'. split; [exact E|]. split; [unfold loop_moved; lra|].
  rewrite (sumf_zero _ utts) in B; [replace (pw_bound scale w l skel utts s' - _) with
    (pw_bound scale w l skel utts s' + w * 0 - pw_bound scale w l skel utts s) by ring; exact B|].
  intros x Hx. apply sumf_zero. intros j _. destruct Hor as [Hn|Ha].
  - assert (Ew : pw_weights s' = pw_weights s).
    { destruct (C171_weights_update sort amax k D scale w lrate uw group l skel utts s s') as (A & _); auto; [apply Hr|]. now apply A. }
    rewrite Ew. ring.
  - rewrite Forall_forall in Ha. specialize (Ha x Hx). unfold pw_first_count, pw_expect. destruct (lu_ali x); [ring|congruence].
Qed.

(** When all the paths of the loop begin with the same phone: the bound where
    the first phone is drawn with the weights as well *)
Theorem C199_one_first_phone : forall sort amax k D scale w lrate uw group l skel utts s i0,
  (forall counts, sorts_desc counts (sort counts)) -> 0 <= scale -> 0 <= w -> NoDup (params skel) -> loop_ok l ->
  one_initial (pl_graph l) i0 ->
  pw_good k D l skel s -> Forall (pw_utt_ok k D l skel s) utts -> rate_ok (pw_weights s) lrate uw ->
  exists s', pw_step sort amax scale w lrate uw group l skel utts s = Some s' /\
    0 <= loop_moved skel s s' <= lrate * (pw_drawn scale w l skel utts s' - pw_drawn scale w l skel utts s).
Proof.
  intros sort amax k D scale w lrate uw group l skel utts s i0 Hsort Hs Hw Hnd Hlo H1 HG HU Hr.
  destruct (C199_gain sort amax k D scale w lrate uw group l skel utts s) as (s' & E & P1 & P2 & B); auto.
  destruct (C171_step sort amax k D scale w lrate uw group l skel utts s) as (s2 & E2 & G & F & _); auto.
  rewrite E in E2. injection E2 as <-.
  exists s'. split; [exact E|]. split; [unfold loop_moved; lra|].
  rewrite (first_gain k D scale l skel utts s s' i0) in B by auto.
  rewrite (pw_drawn_split k D scale w l skel utts s i0), (pw_drawn_split k D scale w l skel utts s' i0) by auto.
  eapply Rle_trans; [exact B|]. apply Rmult_le_compat_l; [apply Hr|]. lra.
Qed.

(** ** Endless trainings *)
Lemma pw_settles sort amax k D scale w (steps : nat -> R * bool * list nat) l skel utts s0 (b : pwst -> R) (run : nat -> pwst) L :
  (forall counts, sorts_desc counts (sort counts)) -> 0 <= scale -> 0 <= w -> NoDup (params skel) -> loop_ok l ->
  pw_good k D l skel s0 -> Forall (pw_utt_ok k D l skel s0) utts ->
  (forall n, rate_ok (pw_weights s0) (fst (fst (steps n))) (snd (fst (steps n)))) ->
  (forall n s, pw_good k D l skel s -> Forall (pw_utt_ok k D l skel s) utts ->
     rate_ok (pw_weights s) (fst (fst (steps n))) (snd (fst (steps n))) ->
     exists s', pw_step sort amax scale w (fst (fst (steps n))) (snd (fst (steps n))) (snd (steps n)) l skel utts s = Some s' /\
       0 <= loop_moved skel s s' <= fst (fst (steps n)) * (b s' - b s)) ->
  (forall n, pw_train sort amax scale w (map steps (seq 0 n)) l skel utts s0 = Some (run n)) ->
  (forall n, b (run n) <= b (run (S n)) <= L) -> Un_cv (fun n => b (run n)) L ->
  (forall n, 0 <= sumf (fun i => loop_moved skel (run i) (run (S i))) (seq 0 n) <= b (run n) - b s0 /\ b (run n) <= L) /\
  Un_cv (fun n => loop_moved skel (run n) (run (S n))) 0.
Proof.
  intros Hso Hs Hw Hnd Hlo G0 U0 R0 Hst HR HL HC.
  assert (E0 : run 0%nat = s0) by (specialize (HR 0%nat); cbn in HR; congruence).
  assert (HS : forall n, pw_step sort amax scale w (fst (fst (steps n))) (snd (fst (steps n))) (snd (steps n)) l skel utts (run n) = Some (run (S n))).
  { intros n. assert (E := HR (S n)). rewrite seq_S, map_app in E. cbn [map Nat.add] in E. rewrite pw_snoc, HR in E. exact E. }
  assert (HT : forall n, pw_good k D l skel (run n) /\ Forall (pw_utt_ok k D l skel (run n)) utts /\
    forall m, rate_ok (pw_weights (run n)) (fst (fst (steps m))) (snd (fst (steps m)))).
  { induction n as [|n (IG & IU & Rt)]; [rewrite E0; auto|].
    destruct (C171_step sort amax k D scale w (fst (fst (steps n))) (snd (fst (steps n))) (snd (steps n)) l skel utts (run n)) as (s' & E & G & F & _); auto.
    rewrite HS in E. injection E as <-. split; [exact G|]. split; [exact F|].
    intros m. eapply rate_kind; [exact (pw_kind _ _ _ _ _ _ _ _ _ _ _ _ (HS n))|apply Rt]. }
  rewrite <- E0. apply (run_settles (fun n => b (run n)) (fun n => loop_moved skel (run n) (run (S n))) L); auto.
  - intros n. destruct (HT n) as (G & F & Rt). destruct (Hst n (run n) G F (Rt n)) as (s' & E & P & Q).
    rewrite HS in E. injection E as <-. split; [exact P|]. apply (Rle_trans _ _ _ Q). destruct (HL n) as [Hg _].
    destruct (Rt n) as [[A B] _].
    assert (X : fst (fst (steps n)) * (b (run (S n)) - b (run n)) <= 1 * (b (run (S n)) - b (run n))) by (apply Rmult_le_compat_r; lra). lra.
  - intros n. destruct (HL n). lra.
Qed.

Theorem C199_aligned_settles : forall sort amax k D scale w (steps : nat -> R * bool * list nat) l skel utts s0,
  (forall counts, sorts_desc counts (sort counts)) -> 0 <= scale -> 0 <= w -> NoDup (params skel) -> loop_ok l ->
  pw_good k D l skel s0 -> Forall (pw_utt_ok k D l skel s0) utts ->
  (forall n, rate_ok (pw_weights s0) (fst (fst (steps n))) (snd (fst (steps n)))) ->
  (forall n, snd (fst (steps n)) = false) \/ Forall (fun x => lu_ali x <> None) utts ->
  exists (run : nat -> pwst) (L : R),
    (forall n, pw_train sort amax scale w (map steps (seq 0 n)) l skel utts s0 = Some (run n)) /\
    Un_cv (fun n => pw_bound scale w l skel utts (run n)) L /\
    (forall n, 0 <= sumf (fun i => loop_moved skel (run i) (run (S i))) (seq 0 n)
                 <= pw_bound scale w l skel utts (run n) - pw_bound scale w l skel utts s0 /\
               pw_bound scale w l skel utts (run n) <= L) /\
    Un_cv (fun n => loop_moved skel (run n) (run (S n))) 0.
Proof.
  intros sort amax k D scale w steps l skel utts s0 Hso Hs Hw Hnd Hlo G0 U0 R0 Hor.
  destruct (C188_aligned_converges sort amax k D scale w steps l skel utts s0 Hso Hs Hw Hnd Hlo G0 U0 R0 Hor) as (run & L & HR & HL & HC).
  exists run, L. split; [exact HR|]. split; [exact HC|].
  apply (pw_settles sort amax k D scale w steps l skel utts s0 (pw_bound scale w l skel utts)); auto.
  intros n s G F Rt. apply (C199_aligned sort amax k D); auto. destruct Hor as [H|H]; [left; apply H|now right].
Qed.

Theorem C199_one_first_phone_settles : forall sort amax k D scale w (steps : nat -> R * bool * list nat) l skel utts s0 i0,
  (forall counts, sorts_desc counts (sort counts)) -> 0 <= scale -> 0 <= w -> NoDup (params skel) -> loop_ok l ->
  one_initial (pl_graph l) i0 ->
  pw_good k D l skel s0 -> Forall (pw_utt_ok k D l skel s0) utts ->
  (forall n, rate_ok (pw_weights s0) (fst (fst (steps n))) (snd (fst (steps n)))) ->
  exists (run : nat -> pwst) (L : R),
    (forall n, pw_train sort amax scale w (map steps (seq 0 n)) l skel utts s0 = Some (run n)) /\
    Un_cv (fun n => pw_drawn scale w l skel utts (run n)) L /\
    (forall n, 0 <= sumf (fun i => loop_moved skel (run i) (run (S i))) (seq 0 n)
                 <= pw_drawn scale w l skel utts (run n) - pw_drawn scale w l skel utts s0 /\
               pw_drawn scale w l skel utts (run n) <= L) /\
    Un_cv (fun n => loop_moved skel (run n) (run (S n))) 0.
Proof.
  intros sort amax k D scale w steps l skel utts s0 i0 Hso Hs Hw Hnd Hlo Hi G0 U0 R0.
  destruct (C188_one_first_phone_converges sort amax k D scale w steps l skel utts s0 i0 Hso Hs Hw Hnd Hlo Hi G0 U0 R0) as (run & L & HR & HL & HC).
  exists run, L. split; [exact HR|]. split; [exact HC|].
  apply (pw_settles sort amax k D scale w steps l skel utts s0 (pw_drawn scale w l skel utts)); auto.
  intros n s G F Rt. now apply (C199_one_first_phone sort amax k D scale w _ _ _ l skel utts s i0).
Qed.

(** The loop of C171, trained for ever, the weights every other step. *)
Example C199_ex : forall sort amax, (forall counts, sorts_desc counts (sort counts)) ->
  let steps := fun n : nat => (1, Nat.even n, [1%nat]) in
  exists (run : nat -> pwst) (L : R),
    (forall n, pw_train sort amax 1 1 (map steps (seq 0 n)) rx_loop rx_skel [rx_utt] px_s = Some (run n)) /\
    Un_cv (fun n => pw_drawn 1 1 rx_loop rx_skel [rx_utt] (run n)) L /\
    (forall n, 0 <= sumf (fun i => loop_moved rx_skel (run i) (run (S i))) (seq 0 n)
                 <= pw_drawn 1 1 rx_loop rx_skel [rx_utt] (run n) - pw_drawn 1 1 rx_loop rx_skel [rx_utt] px_s /\
               pw_drawn 1 1 rx_loop rx_skel [rx_utt] (run n) <= L) /\
    Un_cv (fun n => loop_moved rx_skel (run n) (run (S n))) 0.
Proof.
  intros sort amax Hso steps. assert (N : NoDup (params rx_skel)) by (constructor; [intros []|constructor]).
  apply (C199_one_first_phone_settles sort amax KDiag 1 1 1 steps rx_loop rx_skel [rx_utt] px_s 0); auto; try lra.
  - apply rx_loop_ok.
  - intros i Hi. cbn. destruct (Nat.eqb_spec i 0); [contradiction|reflexivity].
  - apply px_good.
  - constructor; [apply px_utt_ok|constructor].
  - intros n. split; [cbn; lra|]. intros _. reflexivity.
Qed.

Print Assumptions C199_gain.
Print Assumptions C199_aligned.
Print Assumptions C199_one_first_phone.
Print Assumptions C199_aligned_settles.
Print Assumptions C199_one_first_phone_settles.

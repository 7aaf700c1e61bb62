(** C187: the evidence lower bound of the variational training of an HMM is
    bounded from above whatever the posteriors, so training converges. *)
From Coq Require Import Reals List Arith Bool Lia Lra.
From Verif Require Import Prelude Vec Lgamma FB_Model FB_Spec FB_Proofs Edit_Model Dec_Model Set_Model Set_Spec Set_Proofs
  HMM_Model HMM_Spec HMM_Proofs Dist_Model Dist_Spec Mat NW_Model NW_Spec
  Vt_Model Vt_Spec Vt_Proofs Vt_Props Cv_Spec Cv_Proofs.
Import ListNotations.
Local Open Scope R_scope.

(** The priors never move, and no posterior has a bound above some number
    that depends only on the priors, the utterances and the graph. *)
Theorem C187_bounded : forall k D scale w skel utts st0,
  0 <= scale -> 0 <= w -> typed k D st0 skel -> Forall (utt_ok k D skel) utts ->
  exists B, forall st, typed k D st skel -> priors_kept skel st0 st -> bound scale w skel utts st <= B.
Proof. intros. now apply (bound_bounded k D). Qed.

Lemma prior_kept_refl c : prior_kept c c.
Proof. now destruct c. Qed.
Lemma prior_kept_trans a b c : prior_kept a b -> prior_kept b c -> prior_kept a c.
Proof. destruct a, b, c; cbn; try tauto; congruence. Qed.
Lemma prior_kept_update lrate stats c : prior_kept c (cell_update lrate stats c).
Proof. now destruct c. Qed.
Lemma priors_kept_refl skel a : priors_kept skel a a.
Proof. intros p _. induction (a p); constructor; auto using prior_kept_refl. Qed.
Lemma priors_kept_trans skel a b c : priors_kept skel a b -> priors_kept skel b c -> priors_kept skel a c.
Proof.
  intros H1 H2 p Hp. specialize (H1 p Hp). specialize (H2 p Hp). revert H1 H2. generalize (a p), (b p), (c p).
  intros l l' l'' H1. revert l''. induction H1 as [|x y l l' Hxy H IH]; intros l'' H2; inversion H2; subst; constructor; eauto using prior_kept_trans.
Qed.

Lemma kept_map2 (f : nat -> cell -> cell) : (forall i c, prior_kept c (f i c)) ->
  forall l n, Forall2 prior_kept l (map2 f (seq n (length l)) l).
Proof. intros Hf. induction l as [|c l IH]; intros n; cbn; constructor; auto. Qed.

Lemma apply_step_kept skel w lrate group Ds st : priors_kept skel st (apply_step w lrate group Ds st).
Proof.
  intros p Hp. unfold apply_step. destruct (existsb (Nat.eqb p) group); [|now apply (priors_kept_refl skel)].
  apply kept_map2. intros. apply prior_kept_update.
Qed.

Theorem C187_priors : forall amax scale w steps skel utts st st',
  train amax scale w steps skel utts st = Some st' -> priors_kept skel st st'.
Proof.
  intros amax scale w steps skel utts. induction steps as [|[lrate group] steps IH]; intros st st' H; cbn [train] in H.
  - injection H as <-. apply priors_kept_refl.
  - unfold train_step in H. destruct (all_some _) as [Ds|]; [|discriminate]. eapply priors_kept_trans; [apply apply_step_kept|eauto].
Qed.

Lemma train_app amax scale w s1 s2 skel utts st : train amax scale w (s1 ++ s2) skel utts st =
  match train amax scale w s1 skel utts st with Some st' => train amax scale w s2 skel utts st' | None => None end.
Proof.
  revert st. induction s1 as [|[lrate group] s1 IH]; intros st; [reflexivity|]. cbn [app train].
  destruct (train_step _ _ _ _ _ _ _ _); auto.
Qed.

(** Whatever the learning rates and the groups of parameters of the steps, the
    bounds of the successive models increase to a limit. *)
Theorem C187_converges : forall amax k D scale w (lrate : nat -> R) (group : nat -> list nat) skel utts st0,
  0 <= scale -> 0 <= w -> (forall n, 0 <= lrate n <= 1) -> NoDup (params skel) ->
  typed k D st0 skel -> Forall (utt_ok k D skel) utts ->
  exists (run : nat -> state) (L : R),
    (forall n, train amax scale w (map (fun i => (lrate i, group i)) (seq 0 n)) skel utts st0 = Some (run n)) /\
    (forall n, bound scale w skel utts (run n) <= bound scale w skel utts (run (S n)) <= L) /\
    Un_cv (fun n => bound scale w skel utts (run n)) L.
Proof.
  intros amax k D scale w lrate group skel utts st0 Hs Hw Hl Hnd T0 HU.
  destruct (C187_bounded k D scale w skel utts st0 Hs Hw T0 HU) as (B & HB).
  set (tr := fun n => train amax scale w (map (fun i => (lrate i, group i)) (seq 0 n)) skel utts st0).
  set (run := fun n => match tr n with Some s => s | None => st0 end).
  assert (HR : forall n, tr n = Some (run n) /\ typed k D (run n) skel).
  { intros n. destruct (C163_training amax k D scale w (map (fun i => (lrate i, group i)) (seq 0 n)) skel utts st0 Hs Hw) as (s & E & T & _); auto.
    - apply Forall_map, Forall_forall. intros i _. apply Hl.
    - fold (tr n) in E. unfold run. rewrite E. auto. }
  set (b := fun n => bound scale w skel utts (run n)).
  assert (Hg : forall n, b n <= b (S n)).
  { intros n. destruct (HR n) as (E & T). destruct (HR (S n)) as (E' & _).
    destruct (C163_step amax k D scale w (lrate n) (group n) skel utts (run n) Hs Hw (Hl n) Hnd T HU) as (s & Es & _ & Hb).
    unfold tr in E'. rewrite seq_S, map_app, train_app in E'. unfold tr in E. rewrite E in E'. cbn [map train Nat.add] in E'. rewrite Es in E'.
    injection E' as E'. unfold b. rewrite <- E'. exact Hb. }
  assert (Hbd : has_ub b).
  { exists B. intros x (n & ->). destruct (HR n) as (E & T). apply HB; [exact T|]. exact (C187_priors _ _ _ _ _ _ _ _ E). }
  destruct (growing_cv b Hg Hbd) as (L & HL).
  exists run, L. split; [|split].
  - intros n. apply HR.
  - intros n. split; [apply Hg|]. apply (growing_ineq b L); auto.
  - exact HL.
Qed.

(** So a training that waits for a step gaining less than some margin stops,
    within a number of steps that the first bound and the limit give. *)
Theorem C187_stops : forall amax k D scale w (lrate : nat -> R) (group : nat -> list nat) skel utts st0,
  0 <= scale -> 0 <= w -> (forall n, 0 <= lrate n <= 1) -> NoDup (params skel) ->
  typed k D st0 skel -> Forall (utt_ok k D skel) utts ->
  exists (run : nat -> state) (L : R),
    (forall n, train amax scale w (map (fun i => (lrate i, group i)) (seq 0 n)) skel utts st0 = Some (run n)) /\
    forall eps N, 0 < eps -> L - bound scale w skel utts st0 < eps * INR N ->
      exists n, (n < N)%nat /\ bound scale w skel utts (run (S n)) - bound scale w skel utts (run n) < eps.
Proof.
  intros amax k D scale w lrate group skel utts st0 Hs Hw Hl Hnd T0 HU.
  destruct (C187_converges amax k D scale w lrate group skel utts st0 Hs Hw Hl Hnd T0 HU) as (run & L & HR & HL & _).
  exists run, L. split; [exact HR|]. intros eps N He HN.
  assert (E0 : run 0%nat = st0) by (specialize (HR 0%nat); cbn in HR; congruence).
  set (b := fun n => bound scale w skel utts (run n)) in *.
  assert (G : forall m, (exists n, (n < m)%nat /\ b (S n) - b n < eps) \/ b 0%nat + eps * INR m <= b m).
  { induction m as [|m [(n & Hn & H)|IH]]; [right; cbn; lra|left; exists n; split; [lia|exact H]|].
    destruct (Rlt_le_dec (b (S m) - b m) eps) as [H|H]; [left; exists m; split; [lia|exact H]|right].
    rewrite S_INR. lra. }
  destruct (G N) as [H|H]; [exact H|exfalso]. assert (A : b N <= L) by (destruct (HL N); unfold b; lra).
  unfold b in H at 1. rewrite E0 in H. lra.
Qed.

(** The mixture model of C163, trained for ever, one parameter at a time with
    decreasing learning rates. *)
Example C187_ex : forall amax, exists (run : nat -> state) (L : R),
  (forall n, train amax 1 1 (map (fun i => (/ INR (S i), [(i mod 2)%nat])) (seq 0 n)) ex_skel [ex_utt] ex_st = Some (run n)) /\
  (forall n, bound 1 1 ex_skel [ex_utt] (run n) <= bound 1 1 ex_skel [ex_utt] (run (S n)) <= L) /\
  Un_cv (fun n => bound 1 1 ex_skel [ex_utt] (run n)) L.
Proof.
  intros amax. destruct C163_ex as (N & T & U & _).
  apply (C187_converges amax KDiag 1 1 1 (fun i => / INR (S i)) (fun i => [(i mod 2)%nat])); auto; try lra.
  intros n. assert (A : 1 <= INR (S n)) by (rewrite S_INR; pose proof (pos_INR n); lra). split.
  - left. apply Rinv_0_lt_compat. lra.
  - rewrite <- Rinv_1. apply Rinv_le_contravar; lra.
Qed.

Print Assumptions C187_bounded.
Print Assumptions C187_priors.
Print Assumptions C187_converges.
Print Assumptions C187_stops.

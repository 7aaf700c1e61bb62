(** C192: what a step of the variational training gains is at least how far it
    moves the posteriors, so the posteriors settle. *)
From Coq Require Import Reals List Arith Bool Lia Lra.
From Verif Require Import Prelude Vec Lgamma FB_Model FB_Spec FB_Proofs Edit_Model Dec_Model Set_Model Set_Spec Set_Proofs
  HMM_Model HMM_Spec HMM_Proofs Dist_Model Dist_Spec KL_Proofs Mat NW_Model NW_Spec
  Vt_Model Vt_Spec Vt_Proofs Vt_Props Cv_Spec Cv_Proofs Cv_Props Gn_Spec Gn_Proofs.
Import ListNotations.
Local Open Scope R_scope.

(** The divergences KL(old posterior || new posterior) are not negative; their
    sum is at most the learning rate times the gain. *)
Theorem C192_gain : forall amax k D scale w lrate group skel utts st,
  0 <= scale -> 0 <= w -> 0 <= lrate <= 1 -> NoDup (params skel) ->
  typed k D st skel -> Forall (utt_ok k D skel) utts ->
  exists st', train_step amax scale w lrate group skel utts st = Some st' /\
    (forall p, In p (params skel) -> length (st' p) = length (st p) /\
       forall c c', In (c, c') (combine (st p) (st' p)) -> 0 <= moved c c') /\
    0 <= total_moved skel st st' <= lrate * (bound scale w skel utts st' - bound scale w skel utts st).
Proof.
  intros amax k D scale w lrate group skel utts st Hs Hw Hl Hnd T HU.
  assert (E : all_some (map (utt_acc amax scale (inst (forms st) skel)) utts) = Some (map (acc_of amax scale skel st) utts)).
  { clear - Hnd T HU. induction HU as [|u us U HU IH]; [reflexivity|]. cbn [map all_some].
    rewrite (proj1 (utt_rows amax k D scale skel Hnd st u T U)), IH. reflexivity. }
  unfold train_step. rewrite E. eexists. split; [reflexivity|]. set (st' := apply_step _ _ _ _ _).
  assert (HL : forall p, length (st' p) = length (st p)).
  { intros p. unfold st', apply_step. destruct (existsb _ group); [|reflexivity]. rewrite map2_length, seq_length. lia. }
  assert (HP : forall p, In p (params skel) -> forall c c', In (c, c') (combine (st p) (st' p)) -> 0 <= moved c c').
  { intros p Hp c c' Hin. apply (In_nth _ _ (dc, dc)) in Hin. destruct Hin as (i & Hi & Ei).
    rewrite combine_length, HL, Nat.min_id in Hi. rewrite combine_nth in Ei by (now rewrite HL). injection Ei as <- <-.
    destruct (cell_step amax k D scale skel Hs Hnd st utts w lrate group (p, i) T HU Hw Hl) as (A & B & _); [now apply allcells_in|].
    unfold cell_at in A, B. cbn [fst snd] in A, B. fold st' in A, B. apply (moved_nonneg k D).
    destruct (typed_cells k D st skel p i T Hp Hi) as [H|(n & H)]; [left; auto|right; exists n; auto]. }
  split; [intros p Hp; split; [apply HL|exact (HP p Hp)]|]. split; [|now apply (step_gain amax k D)].
  unfold total_moved. apply sumf_nonneg. intros p Hp. apply sumf_nonneg. intros [c c'] Hin. cbn [fst snd]. eauto.
Qed.

(** A component outside the group of the step does not move. *)
Theorem C192_others : forall amax scale w lrate group skel utts st st' p,
  train_step amax scale w lrate group skel utts st = Some st' -> ~ In p group -> st' p = st p.
Proof.
  intros amax scale w lrate group skel utts st st' p H Hp. unfold train_step in H.
  destruct (all_some _) as [Ds|]; [|discriminate]. injection H as <-. unfold apply_step.
  destruct (existsb (Nat.eqb p) group) eqn:E; [|reflexivity]. apply existsb_exists in E. destruct E as (q & Hq & E).
  apply Nat.eqb_eq in E. subst q. tauto.
Qed.

(** Over an endless training the posteriors move a bounded distance in all, at
    most what separates the first bound from the limit, and the steps move
    them less and less. *)
Theorem C192_settles : forall amax k D scale w (lrate : nat -> R) (group : nat -> list nat) skel utts st0,
  0 <= scale -> 0 <= w -> (forall n, 0 <= lrate n <= 1) -> NoDup (params skel) ->
  typed k D st0 skel -> Forall (utt_ok k D skel) utts ->
  exists (run : nat -> state) (L : R),
    (forall n, train amax scale w (map (fun i => (lrate i, group i)) (seq 0 n)) skel utts st0 = Some (run n)) /\
    Un_cv (fun n => bound scale w skel utts (run n)) L /\
    (forall n, 0 <= sumf (fun i => total_moved skel (run i) (run (S i))) (seq 0 n)
                 <= bound scale w skel utts (run n) - bound scale w skel utts st0 /\
               bound scale w skel utts (run n) <= L) /\
    Un_cv (fun n => total_moved skel (run n) (run (S n))) 0.
Proof.
  intros amax k D scale w lrate group skel utts st0 Hs Hw Hl Hnd T0 HU.
  destruct (C187_converges amax k D scale w lrate group skel utts st0 Hs Hw Hl Hnd T0 HU) as (run & L & HR & HL & HC).
  set (b := fun n => bound scale w skel utts (run n)) in *.
  assert (E0 : run 0%nat = st0) by (specialize (HR 0%nat); cbn in HR; congruence).
  assert (HT : forall n, typed k D (run n) skel).
  { intros n. destruct (C163_training amax k D scale w (map (fun i => (lrate i, group i)) (seq 0 n)) skel utts st0 Hs Hw) as (s & E & T & _); auto.
    - apply Forall_map, Forall_forall. intros i _. apply Hl.
    - rewrite HR in E. injection E as <-. exact T. }
  assert (HM : forall n, 0 <= total_moved skel (run n) (run (S n)) <= b (S n) - b n).
  { intros n. destruct (C192_gain amax k D scale w (lrate n) (group n) skel utts (run n) Hs Hw (Hl n) Hnd (HT n) HU) as (s & Es & _ & Hb).
    assert (E' := HR (S n)). rewrite seq_S, map_app, train_app, HR in E'. cbn [map train Nat.add] in E'. rewrite Es in E'.
    injection E' as E'. rewrite E' in Hb. destruct (HL n) as [Hg _]. destruct (Hl n) as [A B]. destruct Hb as [H0 Hb].
    split; [exact H0|]. apply (Rle_trans _ _ _ Hb). change (b n <= b (S n)) in Hg. fold (b n) (b (S n)).
    assert (X : lrate n * (b (S n) - b n) <= 1 * (b (S n) - b n)) by (apply Rmult_le_compat_r; lra). lra. }
  exists run, L. split; [exact HR|]. split; [exact HC|]. split.
  - intros n. rewrite <- E0. fold (b n) (b 0%nat). split; [split|].
    + apply sumf_nonneg. intros i _. apply HM.
    + induction n as [|n IH]; [cbn; lra|]. rewrite seq_S, sumf_app, sumf_cons, sumf_nil. cbn [Nat.add].
      destruct (HM n). lra.
    + destruct (HL n). unfold b. lra.
  - intros eps He. destruct (HC (eps / 2)) as (N & HN); [lra|]. exists N. intros n Hn.
    assert (A := HN n Hn). assert (B := HN (S n) ltac:(lia)). unfold R_dist in *. destruct (HM n) as [P Q].
    apply Rabs_def2 in A. apply Rabs_def2 in B. fold (b n) in A. fold (b (S n)) in B. rewrite Rabs_pos_eq by lra. lra.
Qed.

(** The mixture model of C163, trained for ever, one parameter at a time. *)
Example C192_ex : forall amax, exists (run : nat -> state) (L : R),
  (forall n, train amax 1 1 (map (fun i => (1, [(i mod 2)%nat])) (seq 0 n)) ex_skel [ex_utt] ex_st = Some (run n)) /\
  Un_cv (fun n => bound 1 1 ex_skel [ex_utt] (run n)) L /\
  (forall n, 0 <= sumf (fun i => total_moved ex_skel (run i) (run (S i))) (seq 0 n)
               <= bound 1 1 ex_skel [ex_utt] (run n) - bound 1 1 ex_skel [ex_utt] ex_st /\
             bound 1 1 ex_skel [ex_utt] (run n) <= L) /\
  Un_cv (fun n => total_moved ex_skel (run n) (run (S n))) 0.
Proof.
  intros amax. destruct C163_ex as (N & T & U & _).
  apply (C192_settles amax KDiag 1 1 1 (fun _ => 1) (fun i => [(i mod 2)%nat])); auto; try lra. intros _; lra.
Qed.

(** The divergence is a real distance: a unit Dirichlet moved to (2, 1). *)
Example C192_ex_moved : moved (CWeights [1; 1] [1; 1]) (CWeights [1; 1] [2; 1]) = 1 - ln 2.
Proof.
  cbn [moved]. rewrite dir_kl_dkl by (try discriminate; reflexivity). unfold dkl, rsum.
  cbn [map map2 fold_right]. rewrite !Rplus_0_r.
  replace (2 + 1) with (1 + 1 + 1) by ring. replace 2 with (1 + 1) at 1 by ring.
  rewrite (lgamma_rec (1 + 1)), (lgamma_rec 1), lgamma_1, ln_1, (digamma_rec 1) by lra.
  replace (1 + 1) with 2 by ring. field.
Qed.

Print Assumptions C192_gain.
Print Assumptions C192_others.
Print Assumptions C192_settles.

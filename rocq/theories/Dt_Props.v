(** C174: training an HMM with the accumulate and update commands. *)
From Coq Require Import Reals List Arith Bool Lia Lra Permutation ZArith.
From Verif Require Import Prelude Vec Edit_Model Edit_Proofs Dec_Model Dec_Proofs Opt_Model Opt_Spec Opt_Proofs Opt_Pipe.
From Verif Require Import Lgamma FB_Model FB_Spec FB_Proofs Set_Model Set_Spec Set_Proofs
  HMM_Model HMM_Spec HMM_Proofs HMM_Props Dist_Model Dist_Spec Mat NW_Model NW_Spec
  Vt_Model Vt_Spec Vt_Proofs Vt_Props Dt_Model Dt_Spec Dt_Proofs.
Import ListNotations.
Local Open Scope R_scope.

Lemma foldM_app {A B} (f : B -> A -> result B) l1 l2 s :
  foldM f (l1 ++ l2) s = bindr (foldM f l1 s) (foldM f l2).
Proof.
  revert s. induction l1 as [|a l1 IH]; intros s; simpl; [reflexivity|].
  destruct (f s a); simpl; auto.
Qed.

Lemma step_outside amax scale w lrate g skel utts st st' p :
  train_step amax scale w lrate g skel utts st = Some st' -> ~ In p g -> st' p = st p.
Proof.
  unfold train_step. destruct (all_some _); [|discriminate]. intros E Hp. injection E as <-. unfold apply_step.
  destruct (existsb (Nat.eqb p) g) eqn:Eg; [|reflexivity]. exfalso. apply Hp.
  apply existsb_exists in Eg. destruct Eg as (q & Hq & Eq). apply Nat.eqb_eq in Eq. now subst q.
Qed.

(** One round, after c others recorded in the optimiser state: whatever the
    jobs, it is one step of variational training on the whole data set, for the
    next group of parameters.  The rate is the one of the optimiser state when
    there is one (C76). *)
Theorem C174_round : forall enum amax k D scale ds skel groups lrate rate c saved utts jobs st,
  is_enum enum -> 0 <= scale -> (0 < ds)%nat -> NoDup (params skel) ->
  Forall (@NoDup nat) groups -> incl (concat groups) (params skel) ->
  typed k D st skel -> Forall (utt_ok k D skel) utts -> utts <> [] -> splits utts jobs ->
  (saved = None /\ rate = lrate /\ c = 0%nat) \/ saved = Some (rate, c) -> 0 <= rate <= 1 ->
  let w := INR ds / INR (nframes utts) in
  exists st', round enum amax scale ds skel groups lrate true utts jobs (st, saved) = Ok (st', Some (rate, S c)) /\
    train_step amax scale w rate (nth (c mod length groups) groups []) skel utts st = Some st' /\
    typed k D st' skel /\ bound scale w skel utts st <= bound scale w skel utts st'.
Proof.
  intros enum amax k D scale ds skel groups lrate rate c saved utts jobs st He Hs Hd Hnd Hgn Hgi T HU Hne Hsp Hsv Hr w.
  assert (Hw : 0 <= w).
  { unfold w. apply Rmult_le_pos; [apply pos_INR|]. destruct (nframes utts) as [|n] eqn:E.
    - exfalso. destruct HU as [|u us U _]; [congruence|]. destruct U as (Hu & _). unfold nframes in E. simpl in E.
      destruct (u_stats u); [congruence|discriminate].
    - left. apply Rinv_0_lt_compat, lt_0_INR. lia. }
  destruct (C163_step amax k D scale w rate (nth (c mod length groups) groups []) skel utts st Hs Hw Hr Hnd T HU) as (st' & E & T' & B).
  exists st'. split; [|split; [exact E|split; [exact T'|exact B]]].
  assert (Ho : o_lrate (the_optim groups lrate saved) = rate /\ o_count (the_optim groups lrate saved) = c /\
    cur_group (the_optim groups lrate saved) = nth (c mod length groups) groups []).
  { destruct Hsv as [(-> & -> & ->)| ->]; repeat split; reflexivity. }
  destruct Ho as (O1 & O2 & O3).
  assert (R := round_ok enum amax k D scale ds skel He Hs Hd Hnd groups lrate true utts jobs st saved T HU Hne Hsp Hgn Hgi).
  cbn [negb] in R. rewrite O1, O2, O3 in R. rewrite (R Hr). do 2 f_equal.
  unfold train_step in E.
  assert (E' : all_some (map (utt_acc amax scale (inst (forms st) skel)) utts) = Some (map (acc_of amax scale skel st) utts)).
  { clear - Hnd T HU. induction HU as [|u us U HU IH]; [reflexivity|]. cbn [map all_some].
    rewrite (proj1 (utt_rows amax k D scale skel Hnd st u T U)), IH. reflexivity. }
  rewrite E' in E. injection E as <-. reflexivity.
Qed.

(** A training: the groups of parameters take turns, the bound never decreases
    from one round to the next. *)
Theorem C174_training : forall enum amax k D scale ds skel groups lrate utts jobss st,
  is_enum enum -> 0 <= scale -> (0 < ds)%nat -> 0 <= lrate <= 1 -> NoDup (params skel) ->
  Forall (@NoDup nat) groups -> incl (concat groups) (params skel) ->
  typed k D st skel -> Forall (utt_ok k D skel) utts -> utts <> [] -> Forall (splits utts) jobss ->
  let w := INR ds / INR (nframes utts) in
  forall n m, (n <= m <= length jobss)%nat ->
  exists st1 st2 s1 s2,
    rounds enum amax scale ds skel groups lrate true utts (firstn n jobss) (st, None) = Ok (st1, s1) /\
    rounds enum amax scale ds skel groups lrate true utts (firstn m jobss) (st, None) = Ok (st2, s2) /\
    train amax scale w (turns groups lrate 0 n) skel utts st = Some st1 /\
    train amax scale w (turns groups lrate 0 m) skel utts st = Some st2 /\
    typed k D st2 skel /\ bound scale w skel utts st1 <= bound scale w skel utts st2.
Proof.
  intros enum amax k D scale ds skel groups lrate utts jobss st He Hs Hd Hr Hnd Hgn Hgi T HU Hne Hsp w.
  assert (G : forall js st0 c saved, (saved = None /\ c = 0%nat) \/ saved = Some (lrate, c) -> typed k D st0 skel ->
    Forall (splits utts) js ->
    exists st1 s1, rounds enum amax scale ds skel groups lrate true utts js (st0, saved) = Ok (st1, s1) /\
      ((s1 = None /\ (c + length js = 0)%nat) \/ s1 = Some (lrate, (c + length js)%nat)) /\
      train amax scale w (turns groups lrate c (length js)) skel utts st0 = Some st1 /\
      typed k D st1 skel /\ bound scale w skel utts st0 <= bound scale w skel utts st1).
  { induction js as [|jobs js IH]; intros st0 c saved Hsv T0 Hj.
    - exists st0, saved. split; [reflexivity|]. cbn [length]. rewrite Nat.add_0_r.
      split; [destruct Hsv as [[-> ->]| ->]; auto|]. split; [reflexivity|]. split; [exact T0|lra].
    - inversion Hj as [|? ? Hj1 Hj2]; subst.
      destruct (C174_round enum amax k D scale ds skel groups lrate lrate c saved utts jobs st0) as (st1 & E1 & E2 & T1 & B1); auto.
      { destruct Hsv as [[-> ->]| ->]; auto. }
      destruct (IH st1 (S c) (Some (lrate, S c)) (or_intror eq_refl) T1 Hj2) as (st2 & s2 & F1 & F2 & F3 & T2 & B2).
      exists st2, s2. unfold rounds. cbn [foldM]. rewrite E1. cbn [bindr]. split; [exact F1|].
      replace (c + length (jobs :: js))%nat with (S c + length js)%nat by (simpl; lia). split; [exact F2|].
      unfold turns. cbn [length seq map train]. fold w in E2. rewrite E2. split; [exact F3|]. split; [exact T2|].
      fold w in B1. lra. }
  intros n m [Hnm Hm].
  assert (Hf : forall q l, Forall (splits utts) l -> Forall (splits utts) (firstn q l)).
  { intros q l Hl. apply Forall_forall. intros x Hx. apply (proj1 (Forall_forall _ _) Hl).
    rewrite <- (firstn_skipn q l). apply in_app_iff. now left. }
  destruct (G (firstn n jobss) st 0%nat None (or_introl (conj eq_refl eq_refl)) T (Hf n jobss Hsp)) as (st1 & s1 & A1 & A2 & A3 & T1 & B1).
  assert (Em : firstn m jobss = firstn n jobss ++ firstn (m - n) (skipn n jobss)).
  { replace m with (n + (m - n))%nat at 1 by lia. rewrite <- (firstn_skipn n jobss) at 1.
    rewrite firstn_app, firstn_firstn, firstn_length.
    rewrite (Nat.min_r (n + (m - n)) n), (Nat.min_l n) by lia.
    replace (n + (m - n) - n)%nat with (m - n)%nat by lia. reflexivity. }
  assert (Hs2 : Forall (splits utts) (firstn (m - n) (skipn n jobss))).
  { apply Hf. apply Forall_forall. intros x Hx. apply (proj1 (Forall_forall _ _) Hsp).
    rewrite <- (firstn_skipn n jobss). apply in_app_iff. now right. }
  rewrite firstn_length, Nat.min_l in A2, A3 by lia. cbn [plus] in A2.
  destruct (G (firstn (m - n) (skipn n jobss)) st1 n s1 A2 T1 Hs2) as (st2 & s2 & C1 & C2 & C3 & T2 & B2).
  exists st1, st2, s1, s2. split; [exact A1|]. split.
  - rewrite Em. unfold rounds in *. rewrite foldM_app, A1. cbn [bindr]. exact C1.
  - split; [exact A3|]. split; [|split; [exact T2|exact B2]].
    rewrite firstn_length, skipn_length, Nat.min_l in C3 by lia.
    replace m with (n + (m - n))%nat by lia. unfold turns. rewrite seq_app, map_app.
    assert (Tr : forall l1 l2 s, train amax scale w (l1 ++ l2) skel utts s =
      match train amax scale w l1 skel utts s with Some s' => train amax scale w l2 skel utts s' | None => None end).
    { induction l1 as [|[r g] l1 IH]; intros l2 s; [reflexivity|]. cbn [app train].
      destruct (train_step amax scale w r g skel utts s); [apply IH|reflexivity]. }
    rewrite Tr. unfold turns in A3. rewrite A3. exact C3.
Qed.

(** The jobs, and the order in which python enumerates its sets, do not matter. *)
Theorem C174_any_split : forall enum1 enum2 amax k D scale ds skel groups lrate utts jobss1 jobss2 st,
  is_enum enum1 -> is_enum enum2 -> 0 <= scale -> (0 < ds)%nat -> 0 <= lrate <= 1 -> NoDup (params skel) ->
  Forall (@NoDup nat) groups -> incl (concat groups) (params skel) ->
  typed k D st skel -> Forall (utt_ok k D skel) utts -> utts <> [] ->
  Forall (splits utts) jobss1 -> Forall (splits utts) jobss2 -> length jobss1 = length jobss2 ->
  exists st' s1 s2,
    rounds enum1 amax scale ds skel groups lrate true utts jobss1 (st, None) = Ok (st', s1) /\
    rounds enum2 amax scale ds skel groups lrate true utts jobss2 (st, None) = Ok (st', s2).
Proof.
  intros enum1 enum2 amax k D scale ds skel groups lrate utts jobss1 jobss2 st He1 He2 Hs Hd Hr Hnd Hgn Hgi T HU Hne H1 H2 HL.
  destruct (C174_training enum1 amax k D scale ds skel groups lrate utts jobss1 st He1 Hs Hd Hr Hnd Hgn Hgi T HU Hne H1
    (length jobss1) (length jobss1)) as (a & a' & s1 & s1' & A1 & _ & A3 & _); [lia|].
  destruct (C174_training enum2 amax k D scale ds skel groups lrate utts jobss2 st He2 Hs Hd Hr Hnd Hgn Hgi T HU Hne H2
    (length jobss2) (length jobss2)) as (b & b' & s2 & s2' & B1 & _ & B3 & _); [lia|].
  rewrite firstn_all in A1, B1. rewrite HL in A3. rewrite A3 in B3. injection B3 as ->. eauto.
Qed.

(** Without an optimiser state (no -o) every round updates the first group;
    the other parameters never change. *)
Theorem C174_without_state : forall enum amax k D scale ds skel groups lrate utts jobss st saved,
  is_enum enum -> 0 <= scale -> (0 < ds)%nat -> 0 <= lrate <= 1 -> NoDup (params skel) ->
  Forall (@NoDup nat) groups -> incl (concat groups) (params skel) ->
  typed k D st skel -> Forall (utt_ok k D skel) utts -> utts <> [] -> Forall (splits utts) jobss ->
  let w := INR ds / INR (nframes utts) in
  exists st', rounds enum amax scale ds skel groups lrate false utts jobss (st, saved) = Ok (st', saved) /\
    train amax scale w (repeat (lrate, nth 0 groups []) (length jobss)) skel utts st = Some st' /\
    (forall p, ~ In p (nth 0 groups []) -> st' p = st p) /\
    bound scale w skel utts st <= bound scale w skel utts st'.
Proof.
  intros enum amax k D scale ds skel groups lrate utts jobss st saved He Hs Hd Hr Hnd Hgn Hgi T HU Hne Hsp w.
  assert (Hw : 0 <= w).
  { unfold w. apply Rmult_le_pos; [apply pos_INR|]. destruct (nframes utts) as [|n] eqn:E.
    - exfalso. destruct HU as [|u us U _]; [congruence|]. destruct U as (Hu & _). unfold nframes in E. simpl in E.
      destruct (u_stats u); [congruence|discriminate].
    - left. apply Rinv_0_lt_compat, lt_0_INR. lia. }
  revert st T. induction Hsp as [|jobs js Hj Hjs IH]; intros st T.
  - exists st. split; [reflexivity|]. split; [reflexivity|]. split; [reflexivity|lra].
  - set (g := nth 0 groups []) in *.
    destruct (C163_step amax k D scale w lrate g skel utts st Hs Hw Hr Hnd T HU) as (st1 & E & T1 & B1).
    destruct (IH st1 T1) as (st2 & F1 & F2 & F3 & F4). exists st2.
    assert (R := round_ok enum amax k D scale ds skel He Hs Hd Hnd groups lrate false utts jobs st saved T HU Hne Hj Hgn Hgi).
    cbn [the_optim new_optim o_lrate o_count] in R. specialize (R Hr).
    assert (Ec : cur_group (new_optim groups lrate) = g).
    { unfold cur_group, new_optim. cbn [o_count o_groups]. unfold g. destruct groups as [|g0 gs]; [reflexivity|].
      rewrite Nat.mod_0_l by discriminate. reflexivity. }
    rewrite Ec in R.
    assert (E' : all_some (map (utt_acc amax scale (inst (forms st) skel)) utts) = Some (map (acc_of amax scale skel st) utts)).
    { clear - Hnd T HU. induction HU as [|u us U HU IH]; [reflexivity|]. cbn [map all_some].
      rewrite (proj1 (utt_rows amax k D scale skel Hnd st u T U)), IH. reflexivity. }
    assert (E0 := E). unfold train_step in E0. rewrite E' in E0. injection E0 as E0.
    unfold wt in R. fold w in R. rewrite E0 in R.
    split; [unfold rounds; cbn [foldM]; rewrite R; cbn [bindr]; exact F1|].
    split; [cbn [length repeat train]; rewrite E; exact F2|]. split; [|lra].
    intros p Hp. rewrite (F3 p Hp). eapply step_outside; eauto.
Qed.

(** The data set of C163's example, twice the same utterance, first one job then
    two jobs in the other order; the weights and the densities take turns. *)
Example C174_ex : forall enum amax, is_enum enum ->
  exists st1 st2 s1 s2,
    rounds enum amax 1 6 ex_skel [[0]; [1]]%nat 1 true [ex_utt; ex_utt] [[[0; 1]]]%nat (ex_st, None) = Ok (st1, s1) /\
    rounds enum amax 1 6 ex_skel [[0]; [1]]%nat 1 true [ex_utt; ex_utt] [[[0; 1]]; [[1]; []; [0]]]%nat (ex_st, None) = Ok (st2, s2) /\
    st1 1%nat = ex_st 1%nat /\ st2 0%nat = st1 0%nat /\
    bound 1 1 ex_skel [ex_utt; ex_utt] ex_st <= bound 1 1 ex_skel [ex_utt; ex_utt] st1 <=
      bound 1 1 ex_skel [ex_utt; ex_utt] st2.
Proof.
  intros enum amax He. destruct C163_ex as (N & T & U & _).
  assert (HU : Forall (utt_ok KDiag 1 ex_skel) [ex_utt; ex_utt]) by (constructor; [exact U|constructor; [exact U|constructor]]).
  assert (Hj : Forall (splits [ex_utt; ex_utt]) [[[0; 1]]; [[1]; []; [0]]]%nat).
  { constructor; [apply Permutation_refl|]. constructor; [apply perm_swap|constructor]. }
  assert (Hg : Forall (@NoDup nat) [[0]; [1]]%nat).
  { constructor; [|constructor; [|constructor]]; (constructor; [intros []|constructor]). }
  destruct (C174_training enum amax KDiag 1 1 6 ex_skel [[0]; [1]]%nat 1 [ex_utt; ex_utt] [[[0; 1]]; [[1]; []; [0]]]%nat ex_st
    He Rle_0_1 ltac:(lia) (conj Rle_0_1 (Rle_refl 1)) N Hg (incl_refl _) T HU ltac:(discriminate) Hj 0 1)%nat
    as (st0 & st1 & s0 & s1 & A0 & A1 & B0 & B1 & _ & C1); [cbn; lia|].
  destruct (C174_training enum amax KDiag 1 1 6 ex_skel [[0]; [1]]%nat 1 [ex_utt; ex_utt] [[[0; 1]]; [[1]; []; [0]]]%nat ex_st
    He Rle_0_1 ltac:(lia) (conj Rle_0_1 (Rle_refl 1)) N Hg (incl_refl _) T HU ltac:(discriminate) Hj 1 2)%nat
    as (st1' & st2 & s1' & s2 & A1' & A2 & _ & B2 & _ & C2); [cbn; lia|].
  cbn [firstn] in *. rewrite A1 in A1'. injection A1' as <- <-.
  injection B0 as <-.
  assert (Ew : INR 6 / INR (nframes [ex_utt; ex_utt]) = 1) by (cbn; lra).
  rewrite Ew in *. exists st1, st2, s1, s2. split; [exact A1|]. split; [exact A2|].
  change (turns [[0]; [1]]%nat 1 0 1) with [(1, [0%nat])] in B1.
  change (turns [[0]; [1]]%nat 1 0 2) with [(1, [0%nat]); (1, [1%nat])] in B2.
  cbn [train] in B1, B2.
  destruct (train_step amax 1 1 1 [0%nat] ex_skel [ex_utt; ex_utt] ex_st) as [s|] eqn:S1; [|discriminate B1].
  assert (Es : s = st1) by congruence. subst s.
  destruct (train_step amax 1 1 1 [1%nat] ex_skel [ex_utt; ex_utt] st1) as [s|] eqn:S2; [|discriminate B2].
  assert (Es : s = st2) by congruence. subst s.
  split; [eapply step_outside; [exact S1|intros [|[]]; discriminate]|].
  split; [eapply step_outside; [exact S2|intros [|[]]; discriminate]|].
  auto.
Qed.

Print Assumptions C174_round.
Print Assumptions C174_training.
Print Assumptions C174_any_split.
Print Assumptions C174_without_state.

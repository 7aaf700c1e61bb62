(** C177: training a bigram phone-loop with the accumulate and update commands. *)
From Coq Require Import Reals String List Arith Bool Lia Lra Permutation ZArith.
From Verif Require Import Prelude Vec Edit_Model Edit_Proofs Dec_Model Dec_Proofs Opt_Model Opt_Spec Opt_Proofs Opt_Pipe.
From Verif Require Import Gibbs Lgamma FB_Model FB_Spec FB_Proofs Set_Model Set_Spec Set_Proofs
  HMM_Model HMM_Spec HMM_Proofs HMM_Props Dist_Model Dist_Spec Dist_Proofs Mat NW_Model NW_Spec
  SB_Model SB_Spec Sk_Model Sk_Spec Df_Model Pl_Model
  Vt_Model Vt_Spec Vt_Proofs Vt_Props Vl_Model Vl_Spec Vl_Proofs Vl_Props Mx_Model Mx_Spec Mx_Proofs Bg_Model Bg_Spec Bg_Proofs Bg_Props
  Dt_Model Dt_Spec Dt_Proofs Dt_Props Dl_Model Dl_Spec Dl_Proofs Dl_Props Db_Model Db_Proofs.
Import ListNotations.
Local Open Scope R_scope.

(** One round, after c others recorded in the optimiser state: whatever the
    jobs, one step of variational training on the whole data set. *)
Theorem C177_round : forall enum amax k D scale ds l skel wid eg lrate rate c saved xs jobs s,
  is_enum enum -> 0 <= scale -> (0 < ds)%nat ->
  NoDup (params skel) -> bg_loop_ok l -> ~ In wid (params skel) ->
  Forall (@NoDup nat) eg -> incl (concat eg) (params skel) ->
  bg_good k D l skel s -> Forall (bg_utt_ok k D l skel s) xs -> xs <> [] -> shares xs jobs ->
  (saved = None /\ rate = lrate /\ c = 0%nat) \/ saved = Some (rate, c) ->
  0 <= rate <= 1 ->
  let uw := Nat.eqb (c mod Nat.max 1 (length eg)) 0 in
  let w := INR ds / INR (loop_frames xs) in
  exists s', bg_round enum amax scale ds l skel wid eg lrate true xs jobs (s, saved) = Ok (s', Some (rate, S c)) /\
    bg_step amax scale w rate uw (nth (c mod Nat.max 1 (length eg)) eg []) l skel xs s = Ok s' /\
    bg_good k D l skel s' /\ Forall (bg_utt_ok k D l skel s') xs.
Proof.
  intros enum amax k D scale ds l skel wid eg lrate rate c saved xs jobs s He Hs Hd Hnd Hlo Hwid Hgn Hgi G HU Hne Hsp Hsv Hr uw w.
  assert (Ho : o_lrate (the_optim (loop_groups wid eg) lrate saved) = rate /\ o_count (the_optim (loop_groups wid eg) lrate saved) = c).
  { destruct Hsv as [(-> & -> & ->)| ->]; repeat split; reflexivity. }
  destruct Ho as (O1 & O2).
  assert (R := bg_round_ok enum amax k D scale ds l skel wid He Hs Hd Hnd Hlo Hwid eg lrate true xs jobs s saved G HU Hne Hsp Hgn Hgi).
  cbv zeta iota in R. rewrite O1, O2 in R. destruct (R Hr) as (s' & E1 & E2).
  unfold loop_turn in E2. cbn [fst snd] in E2. fold w in E2. fold uw in E2.
  exists s'. split; [exact E1|]. split; [exact E2|].
  destruct (C173_step_partial amax k D scale w rate uw (nth (c mod Nat.max 1 (length eg)) eg []) l skel xs s Hs (loop_weight_nonneg ds xs) Hnd Hlo Hr G HU)
    as (s2 & F & G' & U' & _).
  unfold lwt in E2. fold w in E2. rewrite E2 in F. injection F as <-. auto.
Qed.

Lemma bg_train_app amax scale w t1 t2 l skel xs s :
  bg_train amax scale w (t1 ++ t2) l skel xs s =
  bindr (bg_train amax scale w t1 l skel xs s) (bg_train amax scale w t2 l skel xs).
Proof.
  revert s. induction t1 as [|[[r uw] g] t1 IH]; intros s; [reflexivity|]. cbn [app bg_train].
  destruct (bg_step amax scale w r uw g l skel xs s); [apply IH|reflexivity].
Qed.

Section Rounds.
  Variables (enum : list nat -> list nat) (amax : nat -> (nat -> lp) -> nat) (k : kind) (D : nat)
    (scale : R) (ds : nat) (l : ploop) (skel : mset) (wid : nat) (eg : list (list nat)) (lrate : R) (xs : list lutt).
  Hypothesis He : is_enum enum.
  Hypothesis Hscale : 0 <= scale.
  Hypothesis Hds : (0 < ds)%nat.
  Hypothesis Hnd : NoDup (params skel).
  Hypothesis Hlo : bg_loop_ok l.
  Hypothesis Hwid : ~ In wid (params skel).
  Hypothesis Hgn : Forall (@NoDup nat) eg.
  Hypothesis Hgi : incl (concat eg) (params skel).
  Hypothesis Hne : xs <> [].
  Hypothesis Hr : 0 <= lrate <= 1.
  Let w := INR ds / INR (loop_frames xs).

  Lemma bg_kept_rounds js : forall s c saved, (saved = None /\ c = 0%nat) \/ saved = Some (lrate, c) ->
    bg_good k D l skel s -> Forall (bg_utt_ok k D l skel s) xs -> Forall (shares xs) js ->
    exists s' saved', bg_rounds enum amax scale ds l skel wid eg lrate true xs js (s, saved) = Ok (s', saved') /\
      ((saved' = None /\ (c + length js = 0)%nat) \/ saved' = Some (lrate, (c + length js)%nat)) /\
      bg_train amax scale w (loop_turns eg lrate c (length js)) l skel xs s = Ok s' /\
      bg_good k D l skel s' /\ Forall (bg_utt_ok k D l skel s') xs /\
      (by_sticks (bg_set s) -> by_sticks (bg_set s')).
  Proof.
    induction js as [|jobs js IH]; intros s c saved Hsv G HU Hj.
    - exists s, saved. split; [reflexivity|]. cbn [length]. rewrite Nat.add_0_r.
      split; [destruct Hsv as [[-> ->]| ->]; auto|]. split; [reflexivity|]. auto.
    - inversion Hj as [|? ? Hj1 Hj2]; subst.
      destruct (C177_round enum amax k D scale ds l skel wid eg lrate lrate c saved xs jobs s) as (s1 & E1 & E2 & G1 & U1); auto.
      { destruct Hsv as [[-> ->]| ->]; auto. }
      destruct (IH s1 (S c) (Some (lrate, S c)) (or_intror eq_refl) G1 U1 Hj2) as (s2 & sv2 & F1 & F2 & F3 & G2 & U2 & B2).
      exists s2, sv2. unfold bg_rounds. cbn [foldM]. rewrite E1. cbn [bindr]. split; [exact F1|].
      replace (c + length (jobs :: js))%nat with (S c + length js)%nat by (simpl; lia). split; [exact F2|].
      unfold loop_turns. cbn [length seq map bg_train]. unfold loop_turn at 1. fold w in E2. rewrite E2. cbn [bindr].
      repeat split; auto; [apply G2..|]. intros Hb. apply B2. eapply bg_kind; [exact E2|exact Hb].
  Qed.
End Rounds.

(** A training.  With a stick-breaking set its bound never decreases (C172); with
    a set of Dirichlet distributions it may (C173). *)
Theorem C177_training : forall enum amax k D scale ds l skel wid eg lrate xs jobss s,
  is_enum enum -> 0 <= scale -> (0 < ds)%nat ->
  NoDup (params skel) -> bg_loop_ok l -> ~ In wid (params skel) ->
  Forall (@NoDup nat) eg -> incl (concat eg) (params skel) ->
  bg_good k D l skel s -> Forall (bg_utt_ok k D l skel s) xs -> xs <> [] -> 0 <= lrate <= 1 ->
  Forall (shares xs) jobss ->
  let w := INR ds / INR (loop_frames xs) in
  forall n m, (n <= m <= length jobss)%nat ->
  exists s1 s2 v1 v2,
    bg_rounds enum amax scale ds l skel wid eg lrate true xs (firstn n jobss) (s, None) = Ok (s1, v1) /\
    bg_rounds enum amax scale ds l skel wid eg lrate true xs (firstn m jobss) (s, None) = Ok (s2, v2) /\
    bg_train amax scale w (loop_turns eg lrate 0 n) l skel xs s = Ok s1 /\
    bg_train amax scale w (loop_turns eg lrate 0 m) l skel xs s = Ok s2 /\
    v2 = match m with O => None | _ => Some (lrate, m) end /\
    bg_good k D l skel s2 /\ Forall (bg_utt_ok k D l skel s2) xs /\
    (by_sticks (bg_set s) -> bg_bound scale w l skel xs s1 <= bg_bound scale w l skel xs s2).
Proof.
  intros enum amax k D scale ds l skel wid eg lrate xs jobss s He Hs Hd Hnd Hlo Hwid Hgn Hgi G HU Hne Hr Hsp w n m [Hnm Hm].
  destruct (bg_kept_rounds enum amax k D scale ds l skel wid eg lrate xs He Hs Hd Hnd Hlo Hwid Hgn Hgi Hne Hr
    (firstn n jobss) s 0%nat None (or_introl (conj eq_refl eq_refl)) G HU (firstn_shares xs n jobss Hsp))
    as (s1 & v1 & A1 & A2 & A3 & G1 & U1 & B1).
  assert (Em : firstn m jobss = firstn n jobss ++ firstn (m - n) (skipn n jobss)).
  { replace m with (n + (m - n))%nat at 1 by lia. rewrite <- (firstn_skipn n jobss) at 1.
    rewrite firstn_app, firstn_firstn, firstn_length.
    rewrite (Nat.min_r (n + (m - n)) n), (Nat.min_l n) by lia.
    replace (n + (m - n) - n)%nat with (m - n)%nat by lia. reflexivity. }
  rewrite firstn_length, Nat.min_l in A2, A3 by lia. cbn [plus] in A2.
  destruct (bg_kept_rounds enum amax k D scale ds l skel wid eg lrate xs He Hs Hd Hnd Hlo Hwid Hgn Hgi Hne Hr
    (firstn (m - n) (skipn n jobss)) s1 n v1 A2 G1 U1 (firstn_shares _ _ _ (skipn_shares xs n jobss Hsp)))
    as (s2 & v2 & C1 & C2 & C3 & G2 & U2 & B2).
  rewrite firstn_length, skipn_length, Nat.min_l in C3 by lia.
  exists s1, s2, v1, v2. split; [exact A1|]. split.
  { rewrite Em. unfold bg_rounds in *. rewrite foldM_app, A1. cbn [bindr]. exact C1. }
  split; [exact A3|]. split.
  { replace m with (n + (m - n))%nat by lia. unfold loop_turns in *. rewrite seq_app, map_app, bg_train_app.
    fold w in A3. rewrite A3. exact C3. }
  split.
  { rewrite firstn_length, skipn_length, Nat.min_l in C2 by lia. replace (n + (m - n))%nat with m in C2 by lia.
    destruct C2 as [[-> ->]| ->]; [reflexivity|]. destruct m; [|reflexivity]. exfalso.
    replace n with 0%nat in * by lia. cbn in C1. clear - A1 C1. unfold bg_rounds in *. cbn [firstn foldM] in *. congruence. }
  split; [exact G2|]. split; [exact U2|].
  intros Hb. fold w in C3.
  destruct (C172_training amax k D scale w (loop_turns eg lrate n (m - n)) l skel xs s1) as (s3 & E & _ & _ & B); auto.
  - apply loop_weight_nonneg.
  - unfold loop_turns. apply Forall_map, Forall_forall. intros i _. exact Hr.
  - rewrite C3 in E. injection E as <-. exact B.
Qed.

(** The jobs, and the order in which python enumerates its sets, do not matter. *)
Theorem C177_any_split : forall enum1 enum2 amax k D scale ds l skel wid eg lrate xs jobss1 jobss2 s,
  is_enum enum1 -> is_enum enum2 -> 0 <= scale -> (0 < ds)%nat ->
  NoDup (params skel) -> bg_loop_ok l -> ~ In wid (params skel) ->
  Forall (@NoDup nat) eg -> incl (concat eg) (params skel) ->
  bg_good k D l skel s -> Forall (bg_utt_ok k D l skel s) xs -> xs <> [] -> 0 <= lrate <= 1 ->
  Forall (shares xs) jobss1 -> Forall (shares xs) jobss2 -> length jobss1 = length jobss2 ->
  exists s' v1 v2,
    bg_rounds enum1 amax scale ds l skel wid eg lrate true xs jobss1 (s, None) = Ok (s', v1) /\
    bg_rounds enum2 amax scale ds l skel wid eg lrate true xs jobss2 (s, None) = Ok (s', v2).
Proof.
  intros enum1 enum2 amax k D scale ds l skel wid eg lrate xs jobss1 jobss2 s He1 He2 Hs Hd Hnd Hlo Hwid Hgn Hgi G HU Hne Hr H1 H2 HL.
  destruct (C177_training enum1 amax k D scale ds l skel wid eg lrate xs jobss1 s He1 Hs Hd Hnd Hlo Hwid Hgn Hgi G HU Hne Hr H1
    (length jobss1) (length jobss1)) as (a & a' & v1 & v1' & A1 & _ & A3 & _); [lia|].
  destruct (C177_training enum2 amax k D scale ds l skel wid eg lrate xs jobss2 s He2 Hs Hd Hnd Hlo Hwid Hgn Hgi G HU Hne Hr H2
    (length jobss2) (length jobss2)) as (b & b' & v2 & v2' & B1 & _ & B3 & _); [lia|].
  rewrite firstn_all in A1, B1. rewrite HL in A3. rewrite A3 in B3. injection B3 as ->. eauto.
Qed.

(** Without an optimiser state (no -o) every round updates the set and the first
    group; the other parameters never change. *)
Theorem C177_without_state : forall enum amax k D scale ds l skel wid eg lrate xs jobss s saved,
  is_enum enum -> 0 <= scale -> (0 < ds)%nat ->
  NoDup (params skel) -> bg_loop_ok l -> ~ In wid (params skel) ->
  Forall (@NoDup nat) eg -> incl (concat eg) (params skel) ->
  bg_good k D l skel s -> Forall (bg_utt_ok k D l skel s) xs -> xs <> [] -> 0 <= lrate <= 1 ->
  Forall (shares xs) jobss ->
  let w := INR ds / INR (loop_frames xs) in
  exists s', bg_rounds enum amax scale ds l skel wid eg lrate false xs jobss (s, saved) = Ok (s', saved) /\
    bg_train amax scale w (repeat (lrate, true, nth 0 eg []) (length jobss)) l skel xs s = Ok s' /\
    bg_good k D l skel s' /\ (forall p, ~ In p (nth 0 eg []) -> bg_pars s' p = bg_pars s p).
Proof.
  intros enum amax k D scale ds l skel wid eg lrate xs jobss s saved He Hs Hd Hnd Hlo Hwid Hgn Hgi G HU Hne Hr Hsp w.
  revert s G HU. induction Hsp as [|jobs js Hj Hjs IH]; intros s G HU.
  - exists s. split; [reflexivity|]. split; [reflexivity|]. auto.
  - assert (R := bg_round_ok enum amax k D scale ds l skel wid He Hs Hd Hnd Hlo Hwid eg lrate false xs jobs s saved G HU Hne Hj Hgn Hgi).
    cbn [the_optim new_optim o_lrate o_count] in R. destruct (R Hr) as (s1 & E1 & E2).
    unfold loop_turn in E2. cbn [fst snd] in E2. rewrite Nat.mod_0_l in E2 by lia. cbn [Nat.eqb] in E2. unfold lwt in E2. fold w in E2.
    destruct (C173_step_partial amax k D scale w lrate true (nth 0 eg []) l skel xs s Hs (loop_weight_nonneg ds xs) Hnd Hlo Hr G HU)
      as (s1' & F & G1 & U1 & _).
    rewrite E2 in F. injection F as <-.
    destruct (IH s1 G1 U1) as (s2 & F1 & F2 & G2 & F3).
    exists s2. split; [unfold bg_rounds; cbn [foldM]; rewrite E1; cbn [bindr]; exact F1|].
    split; [cbn [length repeat bg_train]; rewrite E2; exact F2|]. split; [exact G2|].
    intros p Hp. rewrite (F3 p Hp).
    destruct (C172_set_update amax k D scale w lrate true (nth 0 eg []) l skel xs s s1 Hs (loop_weight_nonneg ds xs) Hr Hnd Hlo G HU E2)
      as (_ & _ & A). now apply A.
Qed.

(** No round is possible when one utterance has an alignment. *)
Theorem C177_alignments_fail : forall enum amax k D scale ds l skel wid eg lrate keep xs jobs s saved,
  NoDup (params skel) -> bg_loop_ok l -> ~ In wid (params skel) -> bg_good k D l skel s ->
  Forall (fun x => utt_ok k D skel (lu_utt l (bg_trans s) x)) xs ->
  (exists x, In x xs /\ lu_ali x <> None) ->
  bg_round enum amax scale ds l skel wid eg lrate keep xs jobs (s, saved) =
  Err (match bg_set s with BStick _ _ _ _ => RuntimeError | BCat _ _ => TypeError end).
Proof.
  intros enum amax k D scale ds l skel wid eg lrate keep xs jobs s saved Hnd Hlo Hwid G HU Hx.
  unfold bg_round, bg_data. set (e := match bg_set s with BStick _ _ _ _ => RuntimeError | BCat _ _ => TypeError end).
  set (f := bg_batch amax scale l (inst (forms (bg_pars s)) skel) wid (bg_set s) (bg_trans s)).
  assert (E : mapM f xs = Err e); [|now rewrite E]. destruct Hx as (x & Hin & Hx).
  induction HU as [|y ys Hy HU IH]; [contradiction|]. cbn [mapM]. destruct (lu_ali y) as [g|] eqn:Ea.
  - assert (A := bg_acc_aligned amax k D scale l skel s y g Hnd G Hy Ea). fold e in A.
    destruct (batch_ok amax k D scale skel Hnd (bg_pars s) (lu_utt l (bg_trans s) y) (proj1 G) Hy) as (b & B & _).
    assert (Ef : f y = Err e); [|now rewrite Ef].
    unfold f, bg_batch. unfold bg_acc in A. unfold batch_of in B.
    destruct (hmm_ellh _ _ _ _ _ _ _ _) as [[v c]|]; [|discriminate]. cbn [bindr fst snd] in *.
    destruct (all_some v); [|discriminate].
    destruct (hmm_accumulate _ _ _ _ _); [|discriminate].
    destruct (c_trans c); [discriminate|]. destruct (bg_set s); congruence.
  - destruct (bg_batch_ok amax k D scale l skel wid Hnd Hlo Hwid s y G (conj Ea Hy)) as (b & B & _). fold f in B. rewrite B. cbn [bindr].
    destruct Hin as [->|Hin]; [congruence|]. rewrite (IH Hin). reflexivity.
Qed.

(** The loop of C172's example, twice the same utterance: after one round the
    first stick of the first phone has been passed, with another split of the
    data in the second round. *)
Example C177_ex : forall enum amax, is_enum enum ->
  let s := bg_init bx_loop bx_stick rx_st in
  exists s1 s2 v1,
    bg_rounds enum amax 1 8 bx_loop rx_skel 9 [[1]]%nat 1 true [bx_utt; bx_utt] [[[0; 1]]]%nat (s, None) = Ok (s1, v1) /\
    bg_rounds enum amax 1 8 bx_loop rx_skel 9 [[1]]%nat 1 true [bx_utt; bx_utt] [[[0; 1]]; [[1]; []; [0]]]%nat (s, None) = Ok (s2, Some (1, 2%nat)) /\
    bg_set s1 = BStick 2 [0; 1]%nat [(1, 1); (1, 1); (1, 1); (1, 1)] [(1, 3); (3, 1); (1, 1); (1, 1)] /\
    bg_bound 1 1 bx_loop rx_skel [bx_utt; bx_utt] s <= bg_bound 1 1 bx_loop rx_skel [bx_utt; bx_utt] s1 <=
      bg_bound 1 1 bx_loop rx_skel [bx_utt; bx_utt] s2.
Proof.
  intros enum amax He s.
  assert (N : NoDup (params rx_skel)) by (constructor; [intros []|constructor]).
  assert (W := bx_stick_ok). assert (G := bx_good bx_stick W). fold s in G.
  assert (F : Forall (bg_utt_ok KDiag 1 bx_loop rx_skel s) [bx_utt; bx_utt]).
  { constructor; [exact (bx_utt_ok bx_stick W)|constructor; [exact (bx_utt_ok bx_stick W)|constructor]]. }
  assert (Hj : Forall (shares [bx_utt; bx_utt]) [[[0; 1]]; [[1]; []; [0]]]%nat).
  { constructor; [apply Permutation_refl|]. constructor; [apply perm_swap|constructor]. }
  assert (Hg : Forall (@NoDup nat) [[1]]%nat).
  { constructor; [|constructor]. constructor; [intros []|constructor]. }
  assert (Hw : ~ In 9%nat (params rx_skel)) by (intros [H|[]]; discriminate).
  assert (T := C177_training enum amax KDiag 1 1 8 bx_loop rx_skel 9 [[1]]%nat 1 [bx_utt; bx_utt] [[[0; 1]]; [[1]; []; [0]]]%nat s
    He Rle_0_1 ltac:(lia) N bx_loop_ok Hw Hg (incl_refl _) G F ltac:(discriminate) ltac:(lra) Hj).
  assert (Ew : INR 8 / INR (loop_frames [bx_utt; bx_utt]) = 1) by (cbn; lra).
  cbv zeta in T. rewrite Ew in T.
  destruct (T 0%nat 1%nat) as (s0 & s1 & v0 & v1 & A0 & A1 & _ & T1 & _ & _ & _ & B1); [cbn; lia|].
  destruct (T 1%nat 2%nat) as (s1' & s2 & v1' & v2 & A1' & A2 & _ & _ & V & _ & _ & B2); [cbn; lia|].
  cbn [firstn] in *. rewrite A1 in A1'. injection A1' as <- <-. injection A0 as <- <-. subst v2.
  exists s1, s2, v1. split; [exact A1|]. split; [exact A2|]. split; [|split; [exact (B1 I)|exact (B2 I)]].
  clear A1 A2 B1 B2 T.
  change (loop_turns [[1%nat]] 1 0 1) with [(1, true, [1%nat])] in T1. cbn [bg_train] in T1.
  destruct (bg_step amax 1 1 1 true [1%nat] bx_loop rx_skel [bx_utt; bx_utt] s) as [s1'|] eqn:E; [|discriminate].
  injection T1 as ->.
  destruct (C172_set_update amax KDiag 1 1 1 1 true [1%nat] bx_loop rx_skel [bx_utt; bx_utt] s s1 ltac:(lra) ltac:(lra) ltac:(lra) N bx_loop_ok G F E)
    as (_ & A & _).
  specialize (A eq_refl). change (bg_set s) with bx_stick in A. cbn [bx_stick] in A. destruct A as (q' & Eq & Lq & A).
  rewrite Eq. f_equal. change (length (pl_starts bx_loop)) with 2%nat in *.
  assert (C00 := bx_count bx_stick 0 0 W ltac:(lia) ltac:(lia)). assert (C01 := bx_count bx_stick 0 1 W ltac:(lia) ltac:(lia)).
  assert (C10 := bx_count bx_stick 1 0 W ltac:(lia) ltac:(lia)). assert (C11 := bx_count bx_stick 1 1 W ltac:(lia) ltac:(lia)).
  fold s in C00, C01, C10, C11. cbn [Nat.eqb andb] in C00, C01, C10, C11.
  assert (A00 := A 0%nat 0%nat ltac:(lia) ltac:(lia)). assert (A01 := A 0%nat 1%nat ltac:(lia) ltac:(lia)).
  assert (A10 := A 1%nat 0%nat ltac:(lia) ltac:(lia)). assert (A11 := A 1%nat 1%nat ltac:(lia) ltac:(lia)).
  cbn [nth skipn] in A00, A01, A10, A11. rewrite ?sumf_cons, ?sumf_nil, ?C00, ?C01, ?C10, ?C11 in A00.
  rewrite ?sumf_cons, ?sumf_nil, ?C00, ?C01, ?C10, ?C11 in A01. rewrite ?sumf_cons, ?sumf_nil, ?C00, ?C01, ?C10, ?C11 in A10.
  rewrite ?sumf_cons, ?sumf_nil, ?C00, ?C01, ?C10, ?C11 in A11.
  destruct q' as [|a [|b [|c [|d [|? q']]]]]; try discriminate.
  unfold slice in A00, A01, A10, A11. cbn in A00, A01, A10, A11.
  f_equal; [rewrite A00; f_equal; lra|]. f_equal; [rewrite A01; f_equal; lra|]. f_equal; [rewrite A10; f_equal; lra|].
  f_equal. rewrite A11. f_equal; lra.
Qed.

Print Assumptions C177_round.
Print Assumptions C177_training.
Print Assumptions C177_any_split.
Print Assumptions C177_without_state.
Print Assumptions C177_alignments_fail.

(** C176: training a phone-loop with the accumulate and update commands. *)
From Coq Require Import Reals String List Arith Bool Lia Lra Permutation ZArith.
From Verif Require Import Prelude Vec Edit_Model Edit_Proofs Dec_Model Dec_Proofs Opt_Model Opt_Spec Opt_Proofs Opt_Pipe.
From Verif Require Import Gibbs Lgamma FB_Model FB_Spec FB_Proofs Set_Model Set_Spec Set_Proofs
  HMM_Model HMM_Spec HMM_Proofs HMM_Props Dist_Model Dist_Spec Dist_Proofs Mat NW_Model NW_Spec
  SB_Model SB_Spec Sk_Model Sk_Spec Df_Model Pl_Model
  Vt_Model Vt_Spec Vt_Proofs Vt_Props Vl_Model Vl_Spec Vl_Proofs Vl_Props Mx_Model Mx_Spec Mx_Proofs Mx_Props Pw_Model Pw_Spec Pw_Proofs Pw_Props
  Dt_Model Dt_Spec Dt_Proofs Dt_Props Dl_Model Dl_Spec Dl_Proofs.
Import ListNotations.
Local Open Scope R_scope.

Lemma loop_weight_nonneg ds xs : 0 <= INR ds / INR (loop_frames xs).
Proof.
  destruct (loop_frames xs) as [|n]; [simpl; unfold Rdiv; rewrite Rinv_0; lra|].
  apply Rmult_le_pos; [apply pos_INR|]. left. apply Rinv_0_lt_compat, lt_0_INR. lia.
Qed.

(** One round, after c others recorded in the optimiser state: whatever the
    jobs, one step of variational training on the whole data set.  The groups of
    the emissions take turns; the weights, and the transitions made with them,
    are updated with the first group. *)
Theorem C176_round : forall enum sort amax k D scale ds l skel wid eg lrate rate c saved xs jobs s,
  is_enum enum -> (forall counts, sorts_desc counts (sort counts)) -> 0 <= scale -> (0 < ds)%nat ->
  NoDup (params skel) -> loop_ok l -> ~ In wid (params skel) ->
  Forall (@NoDup nat) eg -> incl (concat eg) (params skel) ->
  pw_good k D l skel s -> Forall (pw_utt_ok k D l skel s) xs -> xs <> [] -> shares xs jobs ->
  (saved = None /\ rate = lrate /\ c = 0%nat) \/ saved = Some (rate, c) -> 
  let uw := Nat.eqb (c mod Nat.max 1 (length eg)) 0 in
  rate_ok (pw_weights s) rate uw ->
  let w := INR ds / INR (loop_frames xs) in
  exists s', loop_round enum sort amax scale ds l skel wid eg lrate true xs jobs (s, saved) = Ok (s', Some (rate, S c)) /\
    pw_step sort amax scale w rate uw (nth (c mod Nat.max 1 (length eg)) eg []) l skel xs s = Some s' /\
    pw_good k D l skel s' /\ Forall (pw_utt_ok k D l skel s') xs.
Proof.
  intros enum sort amax k D scale ds l skel wid eg lrate rate c saved xs jobs s He Hsort Hs Hd Hnd Hlo Hwid Hgn Hgi G HU Hne Hsp Hsv uw Hr w.
  assert (Ho : o_lrate (the_optim (loop_groups wid eg) lrate saved) = rate /\ o_count (the_optim (loop_groups wid eg) lrate saved) = c).
  { destruct Hsv as [(-> & -> & ->)| ->]; repeat split; reflexivity. }
  destruct Ho as (O1 & O2).
  assert (R := loop_round_ok enum sort amax k D scale ds l skel wid He Hs Hd Hnd Hlo Hwid eg lrate true xs jobs s saved G HU Hne Hsp Hgn Hgi).
  cbv zeta iota in R. rewrite O1, O2 in R. destruct (R (proj1 Hr)) as (_ & s' & E1 & E2).
  unfold loop_turn in E2. cbn [fst snd] in E2. fold w in E2. fold uw in E2.
  exists s'. split; [exact E1|]. split; [exact E2|].
  destruct (C171_step sort amax k D scale w rate uw (nth (c mod Nat.max 1 (length eg)) eg []) l skel xs s Hsort Hs (loop_weight_nonneg ds xs) Hnd Hlo G HU Hr)
    as (s2 & F & G' & U' & _).
  unfold lwt in E2. fold w in E2. rewrite E2 in F. injection F as <-. auto.
Qed.

Lemma pw_train_app sort amax scale w t1 t2 l skel xs s :
  pw_train sort amax scale w (t1 ++ t2) l skel xs s =
  match pw_train sort amax scale w t1 l skel xs s with Some s' => pw_train sort amax scale w t2 l skel xs s' | None => None end.
Proof.
  revert s. induction t1 as [|[[r uw] g] t1 IH]; intros s; [reflexivity|]. cbn [app pw_train].
  destruct (pw_step sort amax scale w r uw g l skel xs s); [apply IH|reflexivity].
Qed.

Section Rounds.
  Variables (enum : list nat -> list nat) (sort : list R -> list nat) (amax : nat -> (nat -> lp) -> nat) (k : kind) (D : nat)
    (scale : R) (ds : nat) (l : ploop) (skel : mset) (wid : nat) (eg : list (list nat)) (lrate : R) (xs : list lutt).
  Hypothesis He : is_enum enum.
  Hypothesis Hsort : forall counts, sorts_desc counts (sort counts).
  Hypothesis Hscale : 0 <= scale.
  Hypothesis Hds : (0 < ds)%nat.
  Hypothesis Hnd : NoDup (params skel).
  Hypothesis Hlo : loop_ok l.
  Hypothesis Hwid : ~ In wid (params skel).
  Hypothesis Hgn : Forall (@NoDup nat) eg.
  Hypothesis Hgi : incl (concat eg) (params skel).
  Hypothesis Hne : xs <> [].
  Let w := INR ds / INR (loop_frames xs).

  Lemma rate_any c r (uw : bool) : rate_ok c r true -> rate_ok c r uw.
  Proof using. intros [A B]. split; [exact A|]. intros _. now apply B. Qed.

  Lemma kept_rounds js : forall s c saved, (saved = None /\ c = 0%nat) \/ saved = Some (lrate, c) ->
    pw_good k D l skel s -> Forall (pw_utt_ok k D l skel s) xs -> rate_ok (pw_weights s) lrate true ->
    Forall (shares xs) js ->
    exists s' saved', loop_rounds enum sort amax scale ds l skel wid eg lrate true xs js (s, saved) = Ok (s', saved') /\
      ((saved' = None /\ (c + length js = 0)%nat) \/ saved' = Some (lrate, (c + length js)%nat)) /\
      pw_train sort amax scale w (loop_turns eg lrate c (length js)) l skel xs s = Some s' /\
      pw_good k D l skel s' /\ Forall (pw_utt_ok k D l skel s') xs /\ rate_ok (pw_weights s') lrate true.
  Proof.
    induction js as [|jobs js IH]; intros s c saved Hsv G HU Hr Hj.
    - exists s, saved. split; [reflexivity|]. cbn [length]. rewrite Nat.add_0_r.
      split; [destruct Hsv as [[-> ->]| ->]; auto|]. split; [reflexivity|]. auto.
    - inversion Hj as [|? ? Hj1 Hj2]; subst.
      destruct (C176_round enum sort amax k D scale ds l skel wid eg lrate lrate c saved xs jobs s) as (s1 & E1 & E2 & G1 & U1); auto.
      { destruct Hsv as [[-> ->]| ->]; auto. }
      { now apply rate_any. }
      assert (Hr1 : rate_ok (pw_weights s1) lrate true).
      { eapply rate_kind; [exact (pw_kind _ _ _ _ _ _ _ _ _ _ _ _ E2)|exact Hr]. }
      destruct (IH s1 (S c) (Some (lrate, S c)) (or_intror eq_refl) G1 U1 Hr1 Hj2) as (s2 & sv2 & F1 & F2 & F3 & G2 & U2 & R2).
      exists s2, sv2. unfold loop_rounds. cbn [foldM]. rewrite E1. cbn [bindr]. split; [exact F1|].
      replace (c + length (jobs :: js))%nat with (S c + length js)%nat by (simpl; lia). split; [exact F2|].
      unfold loop_turns. cbn [length seq map pw_train]. unfold loop_turn at 1. fold w in E2. rewrite E2. auto.
  Qed.
End Rounds.

Lemma firstn_shares xs n jobss : Forall (shares xs) jobss -> Forall (shares xs) (firstn n jobss).
Proof.
  intros H. apply Forall_forall. intros x Hx. apply (proj1 (Forall_forall _ _) H).
  rewrite <- (firstn_skipn n jobss). apply in_app_iff. now left.
Qed.

Lemma skipn_shares xs n jobss : Forall (shares xs) jobss -> Forall (shares xs) (skipn n jobss).
Proof.
  intros H. apply Forall_forall. intros x Hx. apply (proj1 (Forall_forall _ _) H).
  rewrite <- (firstn_skipn n jobss). apply in_app_iff. now right.
Qed.

(** A training.  Its bounds never decrease: the one of the loop, when all the
    utterances have alignments; the one where the first phone is drawn with the
    weights as well, when all the paths start with the same phone (C171). *)
Theorem C176_training : forall enum sort amax k D scale ds l skel wid eg lrate xs jobss s,
  is_enum enum -> (forall counts, sorts_desc counts (sort counts)) -> 0 <= scale -> (0 < ds)%nat ->
  NoDup (params skel) -> loop_ok l -> ~ In wid (params skel) ->
  Forall (@NoDup nat) eg -> incl (concat eg) (params skel) ->
  pw_good k D l skel s -> Forall (pw_utt_ok k D l skel s) xs -> xs <> [] -> rate_ok (pw_weights s) lrate true ->
  Forall (shares xs) jobss ->
  let w := INR ds / INR (loop_frames xs) in
  forall n m, (n <= m <= length jobss)%nat ->
  exists s1 s2 v1 v2,
    loop_rounds enum sort amax scale ds l skel wid eg lrate true xs (firstn n jobss) (s, None) = Ok (s1, v1) /\
    loop_rounds enum sort amax scale ds l skel wid eg lrate true xs (firstn m jobss) (s, None) = Ok (s2, v2) /\
    pw_train sort amax scale w (loop_turns eg lrate 0 n) l skel xs s = Some s1 /\
    pw_train sort amax scale w (loop_turns eg lrate 0 m) l skel xs s = Some s2 /\
    v2 = match m with O => None | _ => Some (lrate, m) end /\
    pw_good k D l skel s2 /\ Forall (pw_utt_ok k D l skel s2) xs /\
    (Forall (fun x => lu_ali x <> None) xs -> pw_bound scale w l skel xs s1 <= pw_bound scale w l skel xs s2) /\
    (forall i0, one_initial (pl_graph l) i0 -> pw_drawn scale w l skel xs s1 <= pw_drawn scale w l skel xs s2).
Proof.
  intros enum sort amax k D scale ds l skel wid eg lrate xs jobss s He Hsort Hs Hd Hnd Hlo Hwid Hgn Hgi G HU Hne Hr Hsp w n m [Hnm Hm].
  destruct (kept_rounds enum sort amax k D scale ds l skel wid eg lrate xs He Hsort Hs Hd Hnd Hlo Hwid Hgn Hgi Hne
    (firstn n jobss) s 0%nat None (or_introl (conj eq_refl eq_refl)) G HU Hr (firstn_shares xs n jobss Hsp))
    as (s1 & v1 & A1 & A2 & A3 & G1 & U1 & R1).
  assert (Em : firstn m jobss = firstn n jobss ++ firstn (m - n) (skipn n jobss)).
  { replace m with (n + (m - n))%nat at 1 by lia. rewrite <- (firstn_skipn n jobss) at 1.
    rewrite firstn_app, firstn_firstn, firstn_length.
    rewrite (Nat.min_r (n + (m - n)) n), (Nat.min_l n) by lia.
    replace (n + (m - n) - n)%nat with (m - n)%nat by lia. reflexivity. }
  rewrite firstn_length, Nat.min_l in A2, A3 by lia. cbn [plus] in A2.
  destruct (kept_rounds enum sort amax k D scale ds l skel wid eg lrate xs He Hsort Hs Hd Hnd Hlo Hwid Hgn Hgi Hne
    (firstn (m - n) (skipn n jobss)) s1 n v1 A2 G1 U1 R1 (firstn_shares _ _ _ (skipn_shares xs n jobss Hsp)))
    as (s2 & v2 & C1 & C2 & C3 & G2 & U2 & R2).
  rewrite firstn_length, skipn_length, Nat.min_l in C3 by lia.
  exists s1, s2, v1, v2. split; [exact A1|]. split.
  { rewrite Em. unfold loop_rounds in *. rewrite foldM_app, A1. cbn [bindr]. exact C1. }
  split; [exact A3|]. split.
  { replace m with (n + (m - n))%nat by lia. unfold loop_turns in *. rewrite seq_app, map_app, pw_train_app.
    fold w in A3. rewrite A3. exact C3. }
  split.
  { rewrite firstn_length, skipn_length, Nat.min_l in C2 by lia. replace (n + (m - n))%nat with m in C2 by lia.
    destruct C2 as [[-> ->]| ->]; [reflexivity|]. destruct m; [|reflexivity]. exfalso.
    replace n with 0%nat in * by lia. cbn in C1. clear - A1 C1. unfold loop_rounds in *. cbn [firstn foldM] in *. congruence. }
  split; [exact G2|]. split; [exact U2|].
  assert (Rs : Forall (fun x : R * bool * list nat => rate_ok (pw_weights s1) (fst (fst x)) (snd (fst x))) (loop_turns eg lrate n (m - n))).
  { unfold loop_turns. apply Forall_map, Forall_forall. intros i _. cbn [loop_turn fst snd]. now apply rate_any. }
  fold w in C3. split.
  - intros Ha. destruct (C171_unchanged_first_training sort amax k D scale w (loop_turns eg lrate n (m - n)) l skel xs s1)
      as (s3 & E & _ & _ & B); auto; [apply loop_weight_nonneg|].
    rewrite C3 in E. injection E as <-. exact B.
  - intros i0 Hi. destruct (C171_one_first_phone_training sort amax k D scale w (loop_turns eg lrate n (m - n)) l skel xs s1 i0)
      as (s3 & E & _ & _ & B); auto; [apply loop_weight_nonneg|].
    rewrite C3 in E. injection E as <-. exact B.
Qed.

(** The jobs, and the order in which python enumerates its sets, do not matter. *)
Theorem C176_any_split : forall enum1 enum2 sort amax k D scale ds l skel wid eg lrate xs jobss1 jobss2 s,
  is_enum enum1 -> is_enum enum2 -> (forall counts, sorts_desc counts (sort counts)) -> 0 <= scale -> (0 < ds)%nat ->
  NoDup (params skel) -> loop_ok l -> ~ In wid (params skel) ->
  Forall (@NoDup nat) eg -> incl (concat eg) (params skel) ->
  pw_good k D l skel s -> Forall (pw_utt_ok k D l skel s) xs -> xs <> [] -> rate_ok (pw_weights s) lrate true ->
  Forall (shares xs) jobss1 -> Forall (shares xs) jobss2 -> length jobss1 = length jobss2 ->
  exists s' v1 v2,
    loop_rounds enum1 sort amax scale ds l skel wid eg lrate true xs jobss1 (s, None) = Ok (s', v1) /\
    loop_rounds enum2 sort amax scale ds l skel wid eg lrate true xs jobss2 (s, None) = Ok (s', v2).
Proof.
  intros enum1 enum2 sort amax k D scale ds l skel wid eg lrate xs jobss1 jobss2 s He1 He2 Hsort Hs Hd Hnd Hlo Hwid Hgn Hgi G HU Hne Hr H1 H2 HL.
  destruct (C176_training enum1 sort amax k D scale ds l skel wid eg lrate xs jobss1 s He1 Hsort Hs Hd Hnd Hlo Hwid Hgn Hgi G HU Hne Hr H1
    (length jobss1) (length jobss1)) as (a & a' & v1 & v1' & A1 & _ & A3 & _); [lia|].
  destruct (C176_training enum2 sort amax k D scale ds l skel wid eg lrate xs jobss2 s He2 Hsort Hs Hd Hnd Hlo Hwid Hgn Hgi G HU Hne Hr H2
    (length jobss2) (length jobss2)) as (b & b' & v2 & v2' & B1 & _ & B3 & _); [lia|].
  rewrite firstn_all in A1, B1. rewrite HL in A3. rewrite A3 in B3. injection B3 as ->. eauto.
Qed.

(** Without an optimiser state (no -o) every round updates the weights and the
    first group; the other parameters never change. *)
Theorem C176_without_state : forall enum sort amax k D scale ds l skel wid eg lrate xs jobss s saved,
  is_enum enum -> (forall counts, sorts_desc counts (sort counts)) -> 0 <= scale -> (0 < ds)%nat ->
  NoDup (params skel) -> loop_ok l -> ~ In wid (params skel) ->
  Forall (@NoDup nat) eg -> incl (concat eg) (params skel) ->
  pw_good k D l skel s -> Forall (pw_utt_ok k D l skel s) xs -> xs <> [] -> rate_ok (pw_weights s) lrate true ->
  Forall (shares xs) jobss ->
  let w := INR ds / INR (loop_frames xs) in
  exists s', loop_rounds enum sort amax scale ds l skel wid eg lrate false xs jobss (s, saved) = Ok (s', saved) /\
    pw_train sort amax scale w (repeat (lrate, true, nth 0 eg []) (length jobss)) l skel xs s = Some s' /\
    pw_good k D l skel s' /\ (forall p, ~ In p (nth 0 eg []) -> pw_pars s' p = pw_pars s p).
Proof.
  intros enum sort amax k D scale ds l skel wid eg lrate xs jobss s saved He Hsort Hs Hd Hnd Hlo Hwid Hgn Hgi G HU Hne Hr Hsp w.
  revert s G HU Hr. induction Hsp as [|jobs js Hj Hjs IH]; intros s G HU Hr.
  - exists s. split; [reflexivity|]. split; [reflexivity|]. auto.
  - assert (R := loop_round_ok enum sort amax k D scale ds l skel wid He Hs Hd Hnd Hlo Hwid eg lrate false xs jobs s saved G HU Hne Hj Hgn Hgi).
    cbn [the_optim new_optim o_lrate o_count] in R. destruct (R (proj1 Hr)) as (_ & s1 & E1 & E2).
    unfold loop_turn in E2. cbn [fst snd] in E2. rewrite Nat.mod_0_l in E2 by lia. cbn [Nat.eqb] in E2. unfold lwt in E2. fold w in E2.
    destruct (C171_step sort amax k D scale w lrate true (nth 0 eg []) l skel xs s Hsort Hs (loop_weight_nonneg ds xs) Hnd Hlo G HU Hr)
      as (s1' & F & G1 & U1 & _).
    rewrite E2 in F. injection F as <-.
    destruct (IH s1 G1 U1) as (s2 & F1 & F2 & G2 & F3).
    { eapply rate_kind; [exact (pw_kind _ _ _ _ _ _ _ _ _ _ _ _ E2)|exact Hr]. }
    exists s2. split; [unfold loop_rounds; cbn [foldM]; rewrite E1; cbn [bindr]; exact F1|].
    split; [cbn [length repeat pw_train]; rewrite E2; exact F2|]. split; [exact G2|].
    intros p Hp. rewrite (F3 p Hp).
    destruct (C171_weights_update sort amax k D scale w lrate true (nth 0 eg []) l skel xs s s1 Hs (loop_weight_nonneg ds xs) (proj1 Hr) Hnd Hlo G HU E2)
      as (_ & _ & A). now apply A.
Qed.

(** The loop of C171's example, twice the same utterance; first one job, then two
    jobs in the other order. *)
Example C176_ex : forall enum sort amax, is_enum enum -> (forall counts, sorts_desc counts (sort counts)) ->
  exists s1 s2 v1,
    loop_rounds enum sort amax 1 4 rx_loop rx_skel 9 [[1]]%nat 1 true [rx_utt; rx_utt] [[[0; 1]]]%nat (px_s, None) = Ok (s1, v1) /\
    loop_rounds enum sort amax 1 4 rx_loop rx_skel 9 [[1]]%nat 1 true [rx_utt; rx_utt] [[[0; 1]]; [[1]; []; [0]]]%nat (px_s, None) = Ok (s2, Some (1, 2%nat)) /\
    pw_drawn 1 1 rx_loop rx_skel [rx_utt; rx_utt] px_s <= pw_drawn 1 1 rx_loop rx_skel [rx_utt; rx_utt] s1 <=
      pw_drawn 1 1 rx_loop rx_skel [rx_utt; rx_utt] s2.
Proof.
  intros enum sort amax He Hsort.
  assert (N : NoDup (params rx_skel)) by (constructor; [intros []|constructor]).
  assert (F : Forall (pw_utt_ok KDiag 1 rx_loop rx_skel px_s) [rx_utt; rx_utt]).
  { constructor; [apply px_utt_ok|constructor; [apply px_utt_ok|constructor]]. }
  assert (R1 : rate_ok (pw_weights px_s) 1 true) by (split; [lra|reflexivity]).
  assert (Hj : Forall (shares [rx_utt; rx_utt]) [[[0; 1]]; [[1]; []; [0]]]%nat).
  { constructor; [apply Permutation_refl|]. constructor; [apply perm_swap|constructor]. }
  assert (Hg : Forall (@NoDup nat) [[1]]%nat).
  { constructor; [|constructor]. constructor; [intros []|constructor]. }
  assert (H1 : one_initial (pl_graph rx_loop) 0).
  { intros i Hi. cbn. destruct (Nat.eqb_spec i 0); [contradiction|reflexivity]. }
  assert (Hw : ~ In 9%nat (params rx_skel)) by (intros [H|[]]; discriminate).
  assert (T := C176_training enum sort amax KDiag 1 1 4 rx_loop rx_skel 9 [[1]]%nat 1 [rx_utt; rx_utt] [[[0; 1]]; [[1]; []; [0]]]%nat px_s
    He Hsort Rle_0_1 ltac:(lia) N rx_loop_ok Hw Hg (incl_refl _) px_good F ltac:(discriminate) R1 Hj).
  assert (Ew : INR 4 / INR (loop_frames [rx_utt; rx_utt]) = 1) by (cbn; lra).
  cbv zeta in T. rewrite Ew in T.
  destruct (T 0%nat 1%nat) as (s0 & s1 & v0 & v1 & A0 & A1 & _ & _ & _ & _ & _ & _ & B1); [cbn; lia|].
  destruct (T 1%nat 2%nat) as (s1' & s2 & v1' & v2 & A1' & A2 & _ & _ & V & _ & _ & _ & B2); [cbn; lia|].
  cbn [firstn] in *. rewrite A1 in A1'. injection A1' as <- <-. injection A0 as <- <-. subst v2.
  exists s1, s2, v1. split; [exact A1|]. split; [exact A2|]. split; [exact (B1 0%nat H1)|exact (B2 0%nat H1)].
Qed.

Print Assumptions C176_round.
Print Assumptions C176_training.
Print Assumptions C176_any_split.
Print Assumptions C176_without_state.

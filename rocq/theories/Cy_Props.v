(** C190: the rounds of the accumulate and update commands converge. *)
From Coq Require Import Reals String List Arith Bool Lia Lra Permutation ZArith.
From Verif Require Import Prelude Vec Edit_Model Edit_Proofs Dec_Model Dec_Proofs Opt_Model Opt_Spec Opt_Proofs Opt_Pipe.
From Verif Require Import Gibbs Lgamma FB_Model FB_Spec FB_Proofs Set_Model Set_Spec Set_Proofs
  HMM_Model HMM_Spec HMM_Proofs HMM_Props Dist_Model Dist_Spec Dist_Proofs Mat NW_Model NW_Spec
  SB_Model SB_Spec Sk_Model Sk_Spec Df_Model Pl_Model
  Vt_Model Vt_Spec Vt_Proofs Vt_Props Vl_Model Vl_Spec Vl_Proofs Vl_Props Mx_Model Mx_Spec Mx_Proofs Mx_Props Pw_Model Pw_Spec Pw_Proofs Pw_Props
  Dt_Model Dt_Spec Dt_Proofs Dt_Props Dl_Model Dl_Spec Dl_Proofs Dl_Props Cv_Spec Cv_Props Cw_Spec Cw_Props.
Import ListNotations.
Local Open Scope R_scope.

Lemma weight_nonneg ds utts : 0 <= INR ds / INR (nframes utts).
Proof.
  destruct (nframes utts) as [|n]; [simpl; unfold Rdiv; rewrite Rinv_0; lra|].
  apply Rmult_le_pos; [apply pos_INR|]. left. apply Rinv_0_lt_compat, lt_0_INR. lia.
Qed.

(** Rounds of `beer hmm accumulate` and `beer hmm update`, for ever; each round
    may share the utterances between other jobs. *)
Theorem C190_hmm : forall enum amax k D scale ds skel groups lrate utts (jobs : nat -> list (list nat)) st,
  is_enum enum -> 0 <= scale -> (0 < ds)%nat -> 0 <= lrate <= 1 -> NoDup (params skel) ->
  Forall (@NoDup nat) groups -> incl (concat groups) (params skel) ->
  typed k D st skel -> Forall (utt_ok k D skel) utts -> utts <> [] -> (forall n, splits utts (jobs n)) ->
  let b := fun x : state * option (R * nat) => bound scale (INR ds / INR (nframes utts)) skel utts (fst x) in
  exists (run : nat -> state * option (R * nat)) (L : R),
    (forall n, rounds enum amax scale ds skel groups lrate true utts (map jobs (seq 0 n)) (st, None) = Ok (run n)) /\
    (forall n, b (run n) <= b (run (S n)) <= L) /\ Un_cv (fun n => b (run n)) L.
Proof.
  intros enum amax k D scale ds skel groups lrate utts jobs st He Hs Hd Hr Hnd Hgn Hgi T HU Hne Hsp b.
  assert (Hw := weight_nonneg ds utts). unfold b. set (w := INR ds / INR (nframes utts)) in *.
  destruct (C187_converges amax k D scale w (fun _ => lrate) (fun i => nth (i mod length groups) groups []) skel utts st Hs Hw (fun _ => Hr) Hnd T HU)
    as (run & L & HR & HL & HC).
  assert (HE : forall n, exists v, rounds enum amax scale ds skel groups lrate true utts (map jobs (seq 0 n)) (st, None) = Ok (run n, v)).
  { intros n. destruct (C174_training enum amax k D scale ds skel groups lrate utts (map jobs (seq 0 n)) st He Hs Hd Hr Hnd Hgn Hgi T HU Hne) with (n := n) (m := n)
      as (s1 & s2 & v1 & v2 & E & _ & Et & _).
    - apply Forall_map, Forall_forall. auto.
    - rewrite map_length, seq_length. lia.
    - rewrite firstn_all2 in E by (rewrite map_length, seq_length; lia). fold w in Et. unfold turns in Et.
      rewrite HR in Et. injection Et as Et. subst s1. now exists v1. }
  exists (fun n => match rounds enum amax scale ds skel groups lrate true utts (map jobs (seq 0 n)) (st, None) with Ok x => x | Err _ => (st, None) end), L.
  assert (HF : forall n, fst (match rounds enum amax scale ds skel groups lrate true utts (map jobs (seq 0 n)) (st, None) with Ok x => x | Err _ => (st, None) end) = run n).
  { intros n. destruct (HE n) as (v & E). now rewrite E. }
  split; [|split].
  - intros n. destruct (HE n) as (v & E). now rewrite E.
  - intros n. rewrite !HF. apply HL.
  - intros eps H. destruct (HC eps H) as (N & HN). exists N. intros n Hn. rewrite HF. now apply HN.
Qed.

(** The same for a phone-loop: the bound of the loop when all the utterances
    have alignments, the one with the first phone drawn with the weights when
    all the paths begin with the same phone. *)
Theorem C190_loop : forall enum sort amax k D scale ds l skel wid eg lrate xs (jobs : nat -> list (list nat)) s,
  is_enum enum -> (forall counts, sorts_desc counts (sort counts)) -> 0 <= scale -> (0 < ds)%nat ->
  NoDup (params skel) -> loop_ok l -> ~ In wid (params skel) ->
  Forall (@NoDup nat) eg -> incl (concat eg) (params skel) ->
  pw_good k D l skel s -> Forall (pw_utt_ok k D l skel s) xs -> xs <> [] -> rate_ok (pw_weights s) lrate true ->
  (forall n, shares xs (jobs n)) ->
  let w := INR ds / INR (loop_frames xs) in
  exists (run : nat -> pwst * option (R * nat)),
    (forall n, loop_rounds enum sort amax scale ds l skel wid eg lrate true xs (map jobs (seq 0 n)) (s, None) = Ok (run n)) /\
    (Forall (fun x => lu_ali x <> None) xs -> exists L,
      (forall n, pw_bound scale w l skel xs (fst (run n)) <= pw_bound scale w l skel xs (fst (run (S n))) <= L) /\
      Un_cv (fun n => pw_bound scale w l skel xs (fst (run n))) L) /\
    (forall i0, one_initial (pl_graph l) i0 -> exists L,
      (forall n, pw_drawn scale w l skel xs (fst (run n)) <= pw_drawn scale w l skel xs (fst (run (S n))) <= L) /\
      Un_cv (fun n => pw_drawn scale w l skel xs (fst (run n))) L).
Proof.
  intros enum sort amax k D scale ds l skel wid eg lrate xs jobs s He Hso Hs Hd Hnd Hlo Hwid Hgn Hgi G HU Hne Hr Hsp w.
  assert (Hw : 0 <= w) by apply loop_weight_nonneg.
  set (rd := fun n => loop_rounds enum sort amax scale ds l skel wid eg lrate true xs (map jobs (seq 0 n)) (s, None)).
  assert (HE : forall n, exists s1 v1, rd n = Ok (s1, v1) /\ pw_train sort amax scale w (map (loop_turn eg lrate) (seq 0 n)) l skel xs s = Some s1).
  { intros n. destruct (C176_training enum sort amax k D scale ds l skel wid eg lrate xs (map jobs (seq 0 n)) s He Hso Hs Hd Hnd Hlo Hwid Hgn Hgi G HU Hne Hr) with (n := n) (m := n)
      as (s1 & s2 & v1 & v2 & E & _ & Et & _).
    - apply Forall_map, Forall_forall. auto.
    - rewrite map_length, seq_length. lia.
    - rewrite firstn_all2 in E by (rewrite map_length, seq_length; lia). exists s1, v1. split; [exact E|exact Et]. }
  set (run := fun n => match rd n with Ok x => x | Err _ => (s, None) end).
  assert (Hrun : forall n, rd n = Ok (run n)) by (intros n; unfold run; destruct (HE n) as (s1 & v1 & E & _); now rewrite E).
  assert (Htr : forall n, pw_train sort amax scale w (map (loop_turn eg lrate) (seq 0 n)) l skel xs s = Some (fst (run n))).
  { intros n. unfold run. destruct (HE n) as (s1 & v1 & E & Et). now rewrite E, Et. }
  assert (Hrt : forall n, rate_ok (pw_weights s) (fst (fst (loop_turn eg lrate n))) (snd (fst (loop_turn eg lrate n)))).
  { intros n. unfold loop_turn. cbn [fst snd]. now apply rate_any. }
  assert (Conv : forall (b : pwst -> R) (run' : nat -> pwst) L,
    (forall n, pw_train sort amax scale w (map (loop_turn eg lrate) (seq 0 n)) l skel xs s = Some (run' n)) ->
    (forall n, b (run' n) <= b (run' (S n)) <= L) -> Un_cv (fun n => b (run' n)) L ->
    (forall n, b (fst (run n)) <= b (fst (run (S n))) <= L) /\ Un_cv (fun n => b (fst (run n))) L).
  { intros b run' L H1 H2 H3. assert (E : forall n, fst (run n) = run' n) by (intros n; specialize (H1 n); rewrite Htr in H1; now injection H1).
    split; [intros n; rewrite !E; apply H2|]. intros eps H. destruct (H3 eps H) as (N & HN). exists N. intros n Hn. rewrite E. now apply HN. }
  exists run. split; [exact Hrun|]. split.
  - intros Ha. destruct (C188_aligned_converges sort amax k D scale w (loop_turn eg lrate) l skel xs s) as (run' & L & H1 & H2 & H3); auto.
    exists L. now apply (Conv _ run').
  - intros i0 Hi. destruct (C188_one_first_phone_converges sort amax k D scale w (loop_turn eg lrate) l skel xs s i0) as (run' & L & H1 & H2 & H3); auto.
    exists L. now apply (Conv _ run').
Qed.

(** The model of C174, its two groups in turn, for ever; every other round is
    shared between three jobs, one of them without work. *)
Example C190_ex : forall enum amax, is_enum enum ->
  let jobs := fun n : nat => if Nat.even n then [[0; 1]]%nat else [[1]; []; [0]]%nat in
  let b := fun x : state * option (R * nat) => bound 1 1 ex_skel [ex_utt; ex_utt] (fst x) in
  exists (run : nat -> state * option (R * nat)) (L : R),
    (forall n, rounds enum amax 1 6 ex_skel [[0]; [1]]%nat 1 true [ex_utt; ex_utt] (map jobs (seq 0 n)) (ex_st, None) = Ok (run n)) /\
    (forall n, b (run n) <= b (run (S n)) <= L) /\ Un_cv (fun n => b (run n)) L.
Proof.
  intros enum amax He jobs. destruct C163_ex as (N & T & U & _).
  assert (HU : Forall (utt_ok KDiag 1 ex_skel) [ex_utt; ex_utt]) by (constructor; [exact U|constructor; [exact U|constructor]]).
  assert (E : INR 6 / INR (nframes [ex_utt; ex_utt]) = 1) by (cbn; lra).
  pose proof (C190_hmm enum amax KDiag 1 1 6 ex_skel [[0]; [1]]%nat 1 [ex_utt; ex_utt] jobs ex_st) as H. cbv zeta in H. rewrite E in H.
  apply H; auto; try lra; try lia; try discriminate.
  - constructor; [|constructor; [|constructor]]; (constructor; [intros []|constructor]).
  - intros x Hx. exact Hx.
  - intros n. unfold jobs. destruct (Nat.even n); [apply Permutation_refl|apply perm_swap].
Qed.

Print Assumptions C190_hmm.
Print Assumptions C190_loop.

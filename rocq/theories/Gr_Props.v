(** C200: the rounds of the accumulate and update commands settle. *)
From Coq Require Import Reals String List Arith Bool Lia Lra Permutation ZArith.
From Verif Require Import Prelude Vec Edit_Model Edit_Proofs Dec_Model Dec_Proofs Opt_Model Opt_Spec Opt_Proofs Opt_Pipe.
From Verif Require Import Gibbs Lgamma FB_Model FB_Spec FB_Proofs Set_Model Set_Spec Set_Proofs
  HMM_Model HMM_Spec HMM_Proofs HMM_Props Dist_Model Dist_Spec Dist_Proofs Mat NW_Model NW_Spec
  SB_Model SB_Spec Sk_Model Sk_Spec Df_Model Pl_Model
  Vt_Model Vt_Spec Vt_Proofs Vt_Props Vl_Model Vl_Spec Vl_Proofs Vl_Props Mx_Model Mx_Spec Mx_Proofs Mx_Props Pw_Model Pw_Spec Pw_Proofs Pw_Props
  Dt_Model Dt_Spec Dt_Proofs Dt_Props Dl_Model Dl_Spec Dl_Proofs Dl_Props Cv_Spec Cv_Props Cw_Spec Cw_Props Cy_Props
  Gn_Spec Gn_Proofs Gn_Props Gx_Spec Gp_Spec Gp_Proofs Gp_Props.
Import ListNotations.
Local Open Scope R_scope.

(** One of N numbers is at most their mean. *)
Lemma below_mean (m : nat -> R) N v : (0 < N)%nat -> sumf m (seq 0 N) <= v -> exists n, (n < N)%nat /\ m n <= v / INR N.
Proof.
  intros HN Hv. destruct (Classical_Prop.classic (exists n, (n < N)%nat /\ m n <= v / INR N)) as [H|H]; [exact H|exfalso].
  assert (P : 0 < INR N) by (apply lt_0_INR; lia).
  assert (G : forall M, (0 < M <= N)%nat -> INR M * (v / INR N) < sumf m (seq 0 M)).
  { induction M as [|M IH]; intros HM; [lia|]. rewrite seq_S, sumf_app, sumf_cons, sumf_nil, S_INR. cbn [Nat.add].
    assert (Hm : v / INR N < m M) by (apply Rnot_le_lt; intros Hle; apply H; exists M; split; [lia|exact Hle]).
    destruct M as [|M]; [cbn [seq INR]; rewrite sumf_nil; lra|]. specialize (IH ltac:(lia)). lra. }
  specialize (G N ltac:(lia)). replace (INR N * (v / INR N)) with v in G by (field; lra). lra.
Qed.

Lemma same_run (b : nat -> R) (m : nat -> R) (b' m' : nat -> R) L v :
  (forall n, b' n = b n) -> (forall n, m' n = m n) ->
  (forall n, 0 <= sumf m (seq 0 n) <= b n - v /\ b n <= L) /\ Un_cv m 0 -> Un_cv b L ->
  (forall n, 0 <= sumf m' (seq 0 n) <= b' n - v /\ b' n <= L) /\ Un_cv b' L /\ Un_cv m' 0.
Proof.
  intros Eb Em [H1 H2] H3. split; [|split].
  - intros n. rewrite Eb. rewrite (sumf_ext m' m) by auto. apply H1.
  - intros eps H. destruct (H3 eps H) as (N & HN). exists N. intros n Hn. rewrite Eb. now apply HN.
  - intros eps H. destruct (H2 eps H) as (N & HN). exists N. intros n Hn. rewrite Em. now apply HN.
Qed.

(** Rounds of `beer hmm accumulate` and `beer hmm update`, for ever; each round
    may share the utterances between other jobs.  Among the first N rounds, one
    moves the posteriors by at most the gain of the N rounds over N. *)
Theorem C200_hmm : forall enum amax k D scale ds skel groups lrate utts (jobs : nat -> list (list nat)) st,
  is_enum enum -> 0 <= scale -> (0 < ds)%nat -> 0 <= lrate <= 1 -> NoDup (params skel) ->
  Forall (@NoDup nat) groups -> incl (concat groups) (params skel) ->
  typed k D st skel -> Forall (utt_ok k D skel) utts -> utts <> [] -> (forall n, splits utts (jobs n)) ->
  let b := fun x : state => bound scale (INR ds / INR (nframes utts)) skel utts x in
  exists (run : nat -> state * option (R * nat)) (L : R),
    (forall n, rounds enum amax scale ds skel groups lrate true utts (map jobs (seq 0 n)) (st, None) = Ok (run n)) /\
    let m := fun n => total_moved skel (fst (run n)) (fst (run (S n))) in
    (forall n, 0 <= sumf m (seq 0 n) <= b (fst (run n)) - b st /\ b (fst (run n)) <= L) /\
    Un_cv (fun n => b (fst (run n))) L /\ Un_cv m 0 /\
    forall N, (0 < N)%nat -> exists n, (n < N)%nat /\ m n <= (b (fst (run N)) - b st) / INR N.
Proof.
  intros enum amax k D scale ds skel groups lrate utts jobs st He Hs Hd Hr Hnd Hgn Hgi T HU Hne Hsp b.
  assert (Hw := weight_nonneg ds utts). unfold b. set (w := INR ds / INR (nframes utts)) in *.
  destruct (C192_settles amax k D scale w (fun _ => lrate) (fun i => nth (i mod length groups) groups []) skel utts st Hs Hw (fun _ => Hr) Hnd T HU)
    as (run & L & HR & HC & HL & HM).
  assert (HE : forall n, exists v, rounds enum amax scale ds skel groups lrate true utts (map jobs (seq 0 n)) (st, None) = Ok (run n, v)).
  { intros n. destruct (C174_training enum amax k D scale ds skel groups lrate utts (map jobs (seq 0 n)) st He Hs Hd Hr Hnd Hgn Hgi T HU Hne) with (n := n) (m := n)
      as (s1 & s2 & v1 & v2 & E & _ & Et & _).
    - apply Forall_map, Forall_forall. auto.
    - rewrite map_length, seq_length. lia.
    - rewrite firstn_all2 in E by (rewrite map_length, seq_length; lia). fold w in Et. unfold turns in Et.
      rewrite HR in Et. injection Et as Et. subst s1. now exists v1. }
  exists (fun n => match rounds enum amax scale ds skel groups lrate true utts (map jobs (seq 0 n)) (st, None) with Ok x => x | Err _ => (st, None) end), L.
  set (rd := fun n => match rounds enum amax scale ds skel groups lrate true utts (map jobs (seq 0 n)) (st, None) with Ok x => x | Err _ => (st, None) end).
  assert (HF : forall n, fst (rd n) = run n) by (intros n; unfold rd; destruct (HE n) as (v & E); now rewrite E).
  split; [intros n; destruct (HE n) as (v & E); now rewrite E|]. cbv zeta.
  set (m := fun n => total_moved skel (fst (rd n)) (fst (rd (S n)))).
  destruct (same_run (fun n => bound scale w skel utts (run n)) (fun n => total_moved skel (run n) (run (S n)))
    (fun n => bound scale w skel utts (fst (rd n))) m L (bound scale w skel utts st)) as (A & B & C); auto.
  - intros n. now rewrite HF.
  - intros n. change (m n) with (total_moved skel (fst (rd n)) (fst (rd (S n)))). now rewrite !HF.
  - split; [exact A|]. split; [exact B|]. split; [exact C|]. intros N HN. apply below_mean; [exact HN|]. apply A.
Qed.

(** The same for a phone-loop, all the utterances with alignments or all the
    paths with the same first phone. *)
Theorem C200_loop : forall enum sort amax k D scale ds l skel wid eg lrate xs (jobs : nat -> list (list nat)) s,
  is_enum enum -> (forall counts, sorts_desc counts (sort counts)) -> 0 <= scale -> (0 < ds)%nat ->
  NoDup (params skel) -> loop_ok l -> ~ In wid (params skel) ->
  Forall (@NoDup nat) eg -> incl (concat eg) (params skel) ->
  pw_good k D l skel s -> Forall (pw_utt_ok k D l skel s) xs -> xs <> [] -> rate_ok (pw_weights s) lrate true ->
  (forall n, shares xs (jobs n)) ->
  let w := INR ds / INR (loop_frames xs) in
  exists (run : nat -> pwst * option (R * nat)),
    (forall n, loop_rounds enum sort amax scale ds l skel wid eg lrate true xs (map jobs (seq 0 n)) (s, None) = Ok (run n)) /\
    let m := fun n => loop_moved skel (fst (run n)) (fst (run (S n))) in
    let settles := fun b : pwst -> R => exists L,
      (forall n, 0 <= sumf m (seq 0 n) <= b (fst (run n)) - b s /\ b (fst (run n)) <= L) /\
      Un_cv (fun n => b (fst (run n))) L /\ Un_cv m 0 /\
      forall N, (0 < N)%nat -> exists n, (n < N)%nat /\ m n <= (b (fst (run N)) - b s) / INR N in
    (Forall (fun x => lu_ali x <> None) xs -> settles (pw_bound scale w l skel xs)) /\
    (forall i0, one_initial (pl_graph l) i0 -> settles (pw_drawn scale w l skel xs)).
Proof.
  intros enum sort amax k D scale ds l skel wid eg lrate xs jobs s He Hso Hs Hd Hnd Hlo Hwid Hgn Hgi G HU Hne Hr Hsp w.
  assert (Hw : 0 <= w) by apply loop_weight_nonneg.
  set (rd := fun n => loop_rounds enum sort amax scale ds l skel wid eg lrate true xs (map jobs (seq 0 n)) (s, None)).
  assert (HE : forall n, exists s1 v1, rd n = Ok (s1, v1) /\ pw_train sort amax scale w (map (loop_turn eg lrate) (seq 0 n)) l skel xs s = Some s1).
  { intros n. destruct (C176_training enum sort amax k D scale ds l skel wid eg lrate xs (map jobs (seq 0 n)) s He Hso Hs Hd Hnd Hlo Hwid Hgn Hgi G HU Hne Hr) with (n := n) (m := n)
      as (s1 & s2 & v1 & v2 & E & _ & Et & _).
    - apply Forall_map, Forall_forall. auto.
    - rewrite map_length, seq_length. lia.
    - rewrite firstn_all2 in E by (rewrite map_length, seq_length; lia). exists s1, v1. split; [exact E|exact Et]. }
  set (run := fun n => match rd n with Ok x => x | Err _ => (s, None) end).
  assert (Hrun : forall n, rd n = Ok (run n)) by (intros n; unfold run; destruct (HE n) as (s1 & v1 & E & _); now rewrite E).
  assert (Htr : forall n, pw_train sort amax scale w (map (loop_turn eg lrate) (seq 0 n)) l skel xs s = Some (fst (run n))).
  { intros n. unfold run. destruct (HE n) as (s1 & v1 & E & Et). now rewrite E, Et. }
  assert (Hrt : forall n, rate_ok (pw_weights s) (fst (fst (loop_turn eg lrate n))) (snd (fst (loop_turn eg lrate n)))).
  { intros n. unfold loop_turn. cbn [fst snd]. now apply rate_any. }
  exists run. split; [exact Hrun|]. cbv zeta. set (m := fun n => loop_moved skel (fst (run n)) (fst (run (S n)))).
  set (settles := fun b : pwst -> R => exists L,
      (forall n, 0 <= sumf m (seq 0 n) <= b (fst (run n)) - b s /\ b (fst (run n)) <= L) /\
      Un_cv (fun n => b (fst (run n))) L /\ Un_cv m 0 /\
      forall N, (0 < N)%nat -> exists n, (n < N)%nat /\ m n <= (b (fst (run N)) - b s) / INR N).
  assert (Set_ : forall (b : pwst -> R) (run' : nat -> pwst) L,
    (forall n, pw_train sort amax scale w (map (loop_turn eg lrate) (seq 0 n)) l skel xs s = Some (run' n)) ->
    Un_cv (fun n => b (run' n)) L ->
    (forall n, 0 <= sumf (fun i => loop_moved skel (run' i) (run' (S i))) (seq 0 n) <= b (run' n) - b s /\ b (run' n) <= L) ->
    Un_cv (fun n => loop_moved skel (run' n) (run' (S n))) 0 -> settles b).
  { intros b run' L H1 H2 H3 H4. assert (E : forall n, fst (run n) = run' n) by (intros n; specialize (H1 n); rewrite Htr in H1; now injection H1).
    exists L. destruct (same_run (fun n => b (run' n)) (fun n => loop_moved skel (run' n) (run' (S n)))
      (fun n => b (fst (run n))) m L (b s)) as (A & B & C); auto.
    - intros n. now rewrite E.
    - intros n. unfold m. now rewrite !E.
    - split; [exact A|]. split; [exact B|]. split; [exact C|]. intros N HN. apply below_mean; [exact HN|]. apply A. }
  split.
  - intros Ha. destruct (C199_aligned_settles sort amax k D scale w (loop_turn eg lrate) l skel xs s) as (run' & L & H1 & H2 & H3 & H4); auto.
    now apply (Set_ _ run' L).
  - intros i0 Hi. destruct (C199_one_first_phone_settles sort amax k D scale w (loop_turn eg lrate) l skel xs s i0) as (run' & L & H1 & H2 & H3 & H4); auto.
    now apply (Set_ _ run' L).
Qed.

(** The model of C174, its two groups in turn: among the first ten rounds there
    is one that moves the posteriors by at most a tenth of what they gain. *)
Example C200_ex : forall enum amax, is_enum enum ->
  let jobs := fun n : nat => if Nat.even n then [[0; 1]]%nat else [[1]; []; [0]]%nat in
  let b := bound 1 1 ex_skel [ex_utt; ex_utt] in
  exists run : nat -> state * option (R * nat),
    (forall n, rounds enum amax 1 6 ex_skel [[0]; [1]]%nat 1 true [ex_utt; ex_utt] (map jobs (seq 0 n)) (ex_st, None) = Ok (run n)) /\
    exists n, (n < 10)%nat /\ total_moved ex_skel (fst (run n)) (fst (run (S n))) <= (b (fst (run 10%nat)) - b ex_st) / 10.
Proof.
  intros enum amax He jobs b. destruct C163_ex as (N & T & U & _).
  assert (HU : Forall (utt_ok KDiag 1 ex_skel) [ex_utt; ex_utt]) by (constructor; [exact U|constructor; [exact U|constructor]]).
  assert (E : INR 6 / INR (nframes [ex_utt; ex_utt]) = 1) by (cbn; lra).
  pose proof (C200_hmm enum amax KDiag 1 1 6 ex_skel [[0]; [1]]%nat 1 [ex_utt; ex_utt] jobs ex_st) as H. cbv zeta in H. rewrite E in H.
  destruct H as (run & L & HR & _ & _ & _ & HB); auto; try lra; try lia; try discriminate.
  - constructor; [|constructor; [|constructor]]; (constructor; [intros []|constructor]).
  - intros x Hx. exact Hx.
  - intros n. unfold jobs. destruct (Nat.even n); [apply Permutation_refl|apply perm_swap].
  - exists run. split; [exact HR|]. destruct (HB 10%nat ltac:(lia)) as (n & Hn & Hb). exists n. split; [exact Hn|].
    replace (INR 10) with 10 in Hb by (cbn; lra). exact Hb.
Qed.

Print Assumptions C200_hmm.
Print Assumptions C200_loop.

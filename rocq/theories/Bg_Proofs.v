(** Proofs about the training of bigram phone-loops. *)
From Coq Require Import Reals List Arith Bool Lia Lra Permutation.
From Verif Require Import Prelude Vec Gibbs Lgamma FB_Model FB_Spec FB_Proofs Edit_Model Dec_Model Dec_Proofs Set_Model Set_Spec Set_Proofs
  HMM_Model HMM_Spec HMM_Proofs HMM_Props Dist_Model Dist_Spec Dist_Proofs NG_Proofs KL_Proofs Dist_Props Mat NW_Model NW_Spec NW_Proofs NW_KL NW_Props
  SB_Model SB_Spec SB_Proofs SB_Props Sk_Model Sk_Spec Sk_Proofs Sk_Props
  Vt_Model Vt_Spec Vt_Proofs Vt_Props Vl_Model Vl_Spec Vl_Proofs Vl_Props Mx_Model Mx_Spec Mx_Proofs Bg_Model Bg_Spec.
Import ListNotations.
Local Open Scope R_scope.

(** ** Rows in one list *)
Lemma skipn_nth {A} (l : list A) n i d : nth i (skipn n l) d = nth (n + i) l d.
Proof. revert l. induction n; intros [|a l]; cbn; auto. destruct i; reflexivity. Qed.

Lemma firstn_nth_lt {A} (l : list A) n i d : (i < n)%nat -> nth i (firstn n l) d = nth i l d.
Proof. revert n i. induction l as [|a l IH]; intros [|n] [|i] H; cbn; auto; try lia. apply IH. lia. Qed.

Lemma slice_nth K i (c : list (R * R)) k : (k < K)%nat -> nth k (slice K i c) (0, 0) = nth (i * K + k) c (0, 0).
Proof. intros H. unfold slice. now rewrite firstn_nth_lt, skipn_nth. Qed.

Lemma slice_length n K i (c : list (R * R)) : length c = (n * K)%nat -> (i < n)%nat -> length (slice K i c) = K.
Proof.
  intros L H. unfold slice. rewrite firstn_length, skipn_length, L.
  assert (i * K + K <= n * K)%nat; [|lia]. replace (i * K + K)%nat with (S i * K)%nat by (simpl; lia). apply Nat.mul_le_mono_r. lia.
Qed.

Lemma slice_positive K i (c : list (R * R)) : positive_sticks c -> positive_sticks (slice K i c).
Proof.
  intros H. apply Forall_forall. intros x Hx. apply (proj1 (Forall_forall _ _) H). unfold slice in Hx.
  apply In_firstn in Hx. now apply In_skipn in Hx.
Qed.

Lemma sum_slices (f : nat -> R) n K : sumf f (seq 0 (n * K)) = sumf (fun i => sumf (fun k => f (i * K + k)%nat) (seq 0 K)) (seq 0 n).
Proof.
  induction n as [|n IH]; [reflexivity|]. replace (S n * K)%nat with (n * K + K)%nat by (simpl; lia).
  rewrite seq_app, sumf_app, IH. clear IH. replace (S n) with (n + 1)%nat by lia. rewrite (seq_app n 1), sumf_app. f_equal.
  cbn [seq]. rewrite sumf_cons, sumf_nil, Rplus_0_r. cbn [plus].
  rewrite <- (sumf_map (fun k => (n * K + k)%nat) f). f_equal.
  generalize (n * K)%nat. intros a. induction K as [|K' IHK]; [reflexivity|].
  replace (S K') with (K' + 1)%nat by lia. rewrite !seq_app, map_app. f_equal; exact IHK.
Qed.

Lemma flat_index n K j : (j < n * K)%nat -> exists i k, (i < n)%nat /\ (k < K)%nat /\ j = (i * K + k)%nat.
Proof.
  intros H. assert (HK : (K <> 0)%nat) by (intros ->; rewrite Nat.mul_0_r in H; lia).
  exists (j / K)%nat, (j mod K)%nat. split; [apply Nat.div_lt_upper_bound; auto; rewrite Nat.mul_comm; exact H|].
  split; [now apply Nat.mod_upper_bound|]. rewrite Nat.mul_comm. now apply Nat.div_mod.
Qed.

(** ** Expected log-probabilities *)
Lemma logm_ok n b : (0 < n)%nat -> bg_ok n n b ->
  length (bg_logm n b) = n /\ Forall (fun r => length r = n) (bg_logm n b) /\
  forall i k, (i < n)%nat -> (k < n)%nat -> nth k (nth i (bg_logm n b) []) 0 = elog_used n b i k.
Proof.
  intros Hn. destruct b as [p q|m o p q]; cbn [bg_ok bg_logm elog_used elog_next].
  - intros (Lp & Lq & Fp & Fq). unfold catset_logm. split; [now rewrite !map_length, eye_length|]. split.
    + apply Forall_forall. intros r Hr. apply in_map_iff in Hr. destruct Hr as (x & <- & _). unfold lin. now rewrite !map_length.
    + intros i k Hi Hk. rewrite map_map. rewrite (map_nth_lt _ _ _ []) by (rewrite eye_length; lia). rewrite eye_nth by lia.
      unfold lin. rewrite (map_nth_lt _ _ _ []) by (rewrite map_length; lia). rewrite (map_nth_lt _ _ _ []) by lia.
      assert (Hq : dir_ok n (nth k q [])) by (apply (proj1 (Forall_forall _ _) Fq), nth_In; lia). destruct Hq as (Lk & _).
      rewrite dot_cat_stats_unit; auto.
      * apply cat_logprob_ess. now rewrite Lk.
      * rewrite dir_ess_length; auto. intros E. rewrite E in Lk. simpl in Lk. lia.
  - intros (-> & Ho & Lp & Lq & Pp & Pq). unfold sbset_logm.
    assert (Ls : length (set_log_prob o n n q) = n) by (unfold set_log_prob; now rewrite map_length, seq_length).
    split; [now rewrite map_length, eye_length|]. split.
    + apply Forall_forall. intros r Hr. apply in_map_iff in Hr. destruct Hr as (x & <- & _). now rewrite map_length, seq_length.
    + intros i k Hi Hk. rewrite Ls. rewrite (map_nth_lt _ _ _ []) by (rewrite eye_length; lia). rewrite eye_nth by lia.
      rewrite (map_nth_lt _ _ _ 0%nat) by (rewrite seq_length; lia). rewrite seq_nth by lia.
      rewrite dot_unit_row by (rewrite ?map_length; lia). rewrite (map_nth_lt _ _ _ []) by lia. cbn [plus].
      unfold set_log_prob. rewrite (map_nth_lt _ _ _ 0%nat) by (rewrite seq_length; lia). rewrite seq_nth by lia. cbn [plus].
      change (member n i q) with (slice n i q). apply (stick_logw n); auto. now apply (slice_length n).
Qed.

Lemma bg_others l b tr i j : (0 < length (pl_ends l))%nat -> length (pl_ends l) = length (pl_starts l) ->
  bg_ok (length (pl_ends l)) (length (pl_starts l)) b -> ~ (In i (pl_ends l) /\ In j (pl_starts l)) ->
  bg_tune l b tr i j = tr i j.
Proof.
  intros Hn He Hb H. rewrite He in Hb, Hn. destruct (logm_ok _ b Hn Hb) as (Ll & Fl & _).
  unfold bg_tune, bigram_on_weights_update. apply fold_update_other.
  - apply Forall_forall. intros ew Hew. apply in_map_iff in Hew. destruct Hew as ([a e] & <- & Hx). unfold ew_ok. cbn [fst snd].
    apply in_combine_l, in_seq in Hx. apply (proj1 (Forall_forall _ _) Fl), nth_In. lia.
  - rewrite map_map. cbn [fst]. destruct (in_dec Nat.eq_dec i (pl_ends l)) as [Hi|Hi]; [right; tauto|left].
    intros C. apply Hi. apply in_map_iff in C. destruct C as ([a e] & <- & Hx). now apply in_combine_r in Hx.
Qed.

Lemma bg_tune_tuned l b tr : bg_loop_ok l -> bg_ok (length (pl_ends l)) (length (pl_starts l)) b ->
  (forall e, In e (pl_ends l) -> ex (tr e e) <= 1) ->
  bg_tuned l b (bg_tune l b tr) /\
  (forall i j, ~ (In i (pl_ends l) /\ In j (pl_starts l)) -> bg_tune l b tr i j = tr i j).
Proof.
  intros ((Ns & Ne & Hd & Hne & _) & He) W Hle.
  assert (Kp : (0 < length (pl_starts l))%nat) by (destruct (pl_starts l); [congruence|simpl; lia]).
  assert (Ho : forall i j, ~ (In i (pl_ends l) /\ In j (pl_starts l)) -> bg_tune l b tr i j = tr i j).
  { intros i j H. apply bg_others; auto. lia. }
  split; [|exact Ho]. split.
  - intros e Hin. rewrite Ho; [auto|]. intros [_ H]. now apply (Hd e).
  - intros i k Hi Hk e. assert (Hin : In e (pl_ends l)) by (now apply nth_In).
    rewrite (Ho e e) by (intros [_ H]; now apply (Hd e)). rewrite He in W.
    destruct (logm_ok _ b Kp W) as (Ll & Fl & El). unfold e, bg_tune. rewrite bigram_entries; auto; [|lia].
    now rewrite El by lia.
Qed.

(** ** Change of the prior over the paths *)
Definition edge2 (ends starts : list nat) (d : nat -> nat -> R) (i j : nat) : R :=
  sumf (fun a => sumf (fun k => (if Nat.eqb i (nth a ends 0%nat) && Nat.eqb j (nth k starts 0%nat) then 1 else 0) * d a k)
    (seq 0 (length starts))) (seq 0 (length ends)).

Lemma edge2_out ends starts d i j : ~ (In i ends /\ In j starts) -> edge2 ends starts d i j = 0.
Proof.
  intros H. unfold edge2. apply sumf_zero. intros a Ha. apply sumf_zero. intros k Hk. apply in_seq in Ha, Hk.
  destruct (Nat.eqb_spec i (nth a ends 0%nat)) as [E1|]; [|cbn; ring].
  destruct (Nat.eqb_spec j (nth k starts 0%nat)) as [E2|]; [|cbn; ring]. exfalso. apply H. subst. split; apply nth_In; lia.
Qed.

Lemma edge2_in ends starts d a k : NoDup ends -> NoDup starts -> (a < length ends)%nat -> (k < length starts)%nat ->
  edge2 ends starts d (nth a ends 0%nat) (nth k starts 0%nat) = d a k.
Proof.
  intros Ne Ns Ha Hk. unfold edge2. rewrite (sumf_seq_single _ _ a); auto.
  - rewrite (sumf_seq_single _ _ k); auto; [rewrite !Nat.eqb_refl; cbn; ring|].
    intros x Hx Hx'. destruct (Nat.eqb_spec (nth k starts 0%nat) (nth x starts 0%nat)) as [E|]; [|rewrite andb_false_r; ring].
    exfalso. apply Hx'. exact (proj1 (NoDup_nth starts 0%nat) Ns x k Hx Hk (eq_sym E)).
  - intros x Hx Hx'. apply sumf_zero. intros y _.
    destruct (Nat.eqb_spec (nth a ends 0%nat) (nth x ends 0%nat)) as [E|]; [|cbn; ring].
    exfalso. apply Hx'. exact (proj1 (NoDup_nth ends 0%nat) Ne x a Hx Ha (eq_sym E)).
Qed.

Lemma edge2_counts ends starts d p :
  sumf (fun t => edge2 ends starts d (nth t p 0%nat) (nth (S t) p 0%nat)) (seq 0 (pred (length p))) =
  sumf (fun a => sumf (fun k => bigram_count (nth a ends 0%nat) (nth k starts 0%nat) p * d a k) (seq 0 (length starts))) (seq 0 (length ends)).
Proof.
  unfold edge2, bigram_count. rewrite sumf_swap. apply sumf_ext. intros a _. rewrite sumf_swap. apply sumf_ext. intros k _.
  rewrite <- sumf_scal_r. reflexivity.
Qed.

Lemma bg_change l b b' tr tr' : bg_loop_ok l -> bg_tuned l b tr -> bg_tuned l b' tr' ->
  (forall i j, ~ (In i (pl_ends l) /\ In j (pl_starts l)) -> tr' i j = tr i j) ->
  same_frame (with_trans (pl_graph l) tr) (with_trans (pl_graph l) tr')
    (edge2 (pl_ends l) (pl_starts l) (fun i k => elog_used (length (pl_starts l)) b' i k - elog_used (length (pl_starts l)) b i k)).
Proof.
  intros ((Ns & Ne & Hd & _) & _) [_ T1] [_ T2] Ho. split; [reflexivity|]. split; [reflexivity|]. split; [reflexivity|].
  intros i j. cbn [with_trans cg_trans].
  destruct (in_dec Nat.eq_dec i (pl_ends l)) as [Hi|Hi].
  2:{ rewrite Ho, edge2_out, exp_0 by tauto. ring. }
  destruct (in_dec Nat.eq_dec j (pl_starts l)) as [Hj|Hj].
  2:{ rewrite Ho, edge2_out, exp_0 by tauto. ring. }
  assert (Hii : ~ (In i (pl_ends l) /\ In i (pl_starts l))) by (intros [_ H]; now apply (Hd i)).
  apply (In_nth _ _ 0%nat) in Hi, Hj. destruct Hi as (a & Ha & <-), Hj as (k & Hk & <-).
  rewrite edge2_in by auto. rewrite (T1 a k Ha Hk), (T2 a k Ha Hk). rewrite (Ho _ _ Hii).
  rewrite Rmult_assoc, <- exp_plus. f_equal. f_equal. ring.
Qed.

(** ** Update of the set *)
Lemma colsum_cat_stats K rows : (0 < K)%nat -> Forall (fun r => length r = K) rows ->
  colsum K (map cat_stats rows) = cat_stats (colsum K rows).
Proof.
  intros Kp F. assert (Lc : length (colsum K rows) = K) by (now apply colsum_length).
  assert (F' : Forall (fun r => length r = K) (map cat_stats rows)).
  { apply Forall_map. eapply Forall_impl; [|exact F]. intros r Lr. rewrite cat_stats_length; auto. intros ->. simpl in Lr. lia. }
  apply vec_ext.
  - rewrite colsum_length by auto. rewrite cat_stats_length; [now rewrite Lc|]. intros E. rewrite E in Lc. simpl in Lc. lia.
  - intros j Hj. rewrite colsum_length in Hj by auto. rewrite colsum_nth by auto. rewrite cat_stats_nth by (now rewrite Lc).
    rewrite Lc, sumf_map.
    rewrite (sumf_ext _ (fun r => if Nat.eqb (S j) K then rsum r else nth j r 0)).
    2:{ intros r Hr. pose proof (proj1 (Forall_forall _ _) F r Hr) as Lr. cbn beta in Lr. rewrite cat_stats_nth by lia. now rewrite Lr. }
    destruct (Nat.eqb (S j) K); [|now rewrite colsum_nth by auto].
    rewrite (rsum_nth (colsum K rows)), Lc.
    rewrite (sumf_ext (fun k => nth k (colsum K rows) 0) (fun k => sumf (fun r => nth k r 0) rows)).
    2:{ intros k Hk. apply in_seq in Hk. apply colsum_nth; auto. lia. }
    rewrite sumf_swap. apply sumf_ext. intros r Hr. assert (Lr := proj1 (Forall_forall _ _) F r Hr). now rewrite rsum_nth, Lr.
Qed.

Lemma fixed_order_step K lrate o p q q' counts :
  is_order K o -> length p = K -> length q = K -> length q' = K -> length counts = K ->
  positive_sticks p -> positive_sticks q -> Forall (fun x => 0 <= x) counts -> 0 <= lrate <= 1 ->
  (forall i, (i < K)%nat -> let k := nth i o 0%nat in
     nth k q' (0, 0) = ((1 - lrate) * fst (nth k q (0, 0)) + lrate * (fst (nth k p (0, 0)) + nth k counts 0),
                        (1 - lrate) * snd (nth k q (0, 0)) + lrate * (snd (nth k p (0, 0)) + tail_count o counts i))) ->
  sb_objective p o q counts <= sb_objective p o q' counts.
Proof.
  intros Ho Lp Lq Lq' Lc Pp Pq Fc Hl U.
  unfold sb_objective. rewrite !(ellh_by_stick K), !(sb_kl_nth K) by auto. rewrite <- !(sumf_perm _ _ _ Ho).
  assert (I : forall k, In k o -> (0 < fst (nthp q k) /\ 0 < snd (nthp q k)) /\ 0 < fst (nthp p k) /\ 0 < snd (nthp p k)).
  { intros k Hk. apply (ord_lt K _ Ho) in Hk. split; apply positive_nth; auto; lia. }
  assert (F := f_nonneg K counts Lc Fc).
  change (forall i, (i < K)%nat -> nthp q' (nth i o 0%nat) =
    ((1 - lrate) * fst (nthp q (nth i o 0%nat)) + lrate * (fst (nthp p (nth i o 0%nat)) + nth (nth i o 0%nat) counts 0),
     (1 - lrate) * snd (nthp q (nth i o 0%nat)) + lrate * (snd (nthp p (nth i o 0%nat)) + tail_count o counts i))) in U.
  rewrite <- (ord_length K _ Ho) in U. clear Ho. induction o as [|k t IH]; [simpl; rewrite !sumf_nil; lra|].
  cbn [by_stick]. rewrite !sumf_cons.
  destruct (I k (or_introl eq_refl)) as ((I1 & I2) & I3 & I4).
  assert (E := U 0%nat ltac:(simpl; lia)). cbn [nth] in E. unfold tail_count in E. cbn [skipn] in E.
  assert (St := stick_step lrate (nthp q k) (nthp p k) (nth k counts 0) (sumf (fun k => nth k counts 0) t)
     I1 I2 I3 I4 (F k) ltac:(apply sumf_nonneg; intros; apply F) Hl).
  cbn zeta in St. rewrite <- E in St.
  assert (IH' := IH (fun i Hi => U (S i) ltac:(simpl; lia)) (fun k' H => I k' (or_intror H))). lra.
Qed.

Section Update.
  Variables (n K : nat) (w lrate : R) (rows : list mat).
  Hypothesis Kp : (0 < K)%nat.
  Hypothesis Hw : 0 <= w.
  Hypothesis Hl : 0 <= lrate <= 1.
  (** One matrix of counts per utterance *)
  Hypothesis Hr : Forall (fun M => length M = n /\ Forall (fun r => length r = K /\ Forall (fun v => 0 <= v) r) M) rows.

  Let cnt (i k : nat) : R := w * sumf (fun M => nth k (nth i M []) 0) rows.

  Lemma row_rows i : (i < n)%nat -> Forall (fun r => length r = K /\ Forall (fun v => 0 <= v) r) (map (fun M => nth i M []) rows).
  Proof.
    intros Hi. apply Forall_map. eapply Forall_impl; [|exact Hr]. intros M [LM FM]. apply (proj1 (Forall_forall _ _) FM), nth_In. lia.
  Qed.

  Lemma cnt_counts i k : mx_counts w (map (fun M => nth i M []) rows) k = cnt i k.
  Proof. unfold mx_counts, cnt. now rewrite sumf_map. Qed.

  Lemma bg_stats_nth i : (i < n)%nat -> nth i (bg_stats w n K rows) [] = vscale w (colsum K (map (fun M => nth i M []) rows)).
  Proof. intros Hi. unfold bg_stats. rewrite (map_nth_lt _ _ _ 0%nat) by (now rewrite seq_length). now rewrite seq_nth. Qed.

  Lemma bg_stats_ok i : (i < n)%nat -> let counts := nth i (bg_stats w n K rows) [] in
    length counts = K /\ Forall (fun x => 0 <= x) counts /\ forall k, (k < K)%nat -> nth k counts 0 = cnt i k.
  Proof.
    intros Hi counts. destruct (stick_counts K w (map (fun M => nth i M []) rows) Hw (row_rows i Hi)) as (A & B & C).
    unfold counts. rewrite bg_stats_nth by auto. split; [exact A|]. split; [exact B|]. intros k Hk. rewrite C by auto. apply cnt_counts.
  Qed.

  Lemma bg_stats_rows : Forall (fun row => length row = K) (bg_stats w n K rows).
  Proof.
    apply Forall_forall. intros r H. destruct (In_nth _ _ [] H) as (i & Hi & <-). unfold bg_stats in Hi.
    rewrite map_length, seq_length in Hi. now apply bg_stats_ok.
  Qed.

  (** The statistics given to the update *)
  Definition set_rows (b : bset) (M : mat) : mat :=
    match b with BCat _ _ => map cat_stats M | BStick _ _ _ _ => M end.

  Lemma stick_update_nth o p q i j : is_order K o -> length p = (n * K)%nat -> length q = (n * K)%nat -> (i < n)%nat -> (j < K)%nat ->
    let counts := nth i (bg_stats w n K rows) [] in let k := nth j o 0%nat in
    let q' := map2 (fun pq s => stick_update lrate (fst pq) (snd pq) s) (combine p q) (set_transform_stats o (bg_stats w n K rows)) in
    length q' = (n * K)%nat /\
    nth k (slice K i q') (0, 0) =
      ((1 - lrate) * fst (nth k (slice K i q) (0, 0)) + lrate * (fst (nth k (slice K i p) (0, 0)) + nth k counts 0),
       (1 - lrate) * snd (nth k (slice K i q) (0, 0)) + lrate * (snd (nth k (slice K i p) (0, 0)) + tail_count o counts j)).
  Proof.
    intros Ho Lp Lq Hi Hj counts k q'.
    assert (Ls : length (bg_stats w n K rows) = n) by (unfold bg_stats; now rewrite map_length, seq_length).
    assert (Lt : length (set_transform_stats o (bg_stats w n K rows)) = (n * K)%nat).
    { rewrite <- Ls at 2. unfold set_transform_stats. generalize bg_stats_rows. generalize (bg_stats w n K rows). intros l F.
      induction F as [|r l Lr F IH]; [reflexivity|]. cbn [map concat length]. rewrite app_length, IH.
      rewrite (transform_length K) by auto. simpl. reflexivity. }
    assert (L' : length q' = (n * K)%nat) by (unfold q'; rewrite map2_length, combine_length; lia).
    split; [exact L'|]. assert (Hk : (k < K)%nat) by (now apply ord_nth_lt).
    assert (Hj' : (i * K + k < n * K)%nat).
    { apply Nat.lt_le_trans with (S i * K)%nat; [simpl; lia|]. apply Nat.mul_le_mono_r. lia. }
    rewrite !slice_nth by auto. unfold q'.
    rewrite (map2_nth _ _ _ _ ((0, 0), (0, 0)) (0, 0) (0, 0)) by (rewrite ?combine_length; lia).
    rewrite combine_nth by lia. cbn [fst snd]. rewrite stick_update_value.
    assert (T := C43_set_tail_counts K o (bg_stats w n K rows) i j Ho bg_stats_rows ltac:(lia) Hj). cbv zeta in T. fold k counts in T.
    change (member K i) with (slice K i) in T. rewrite slice_nth in T by auto. rewrite T. cbn [fst snd]. f_equal. ring.
  Qed.

  Lemma bg_gain b : bg_ok n K b ->
    let b' := bg_update lrate (bg_stats w n K (map (set_rows b) rows)) b in
    bg_ok n K b' /\
    bg_kl b' - bg_kl b <= sumf (fun i => sumf (fun k => cnt i k * (elog_next K b' i k - elog_next K b i k)) (seq 0 K)) (seq 0 n).
  Proof.
    destruct b as [p q|m o p q].
    - intros (Lp & Lq & Fp & Fq) b'.
      change (map (set_rows (BCat p q)) rows) with (map (map cat_stats) rows) in b'.
      set (st := bg_stats w n K (map (map cat_stats) rows)) in *.
      assert (Lst : length st = n) by (unfold st, bg_stats; now rewrite map_length, seq_length).
      set (q' := map2 (fun pq s => std_update dir_nat dir_from_nat lrate (fst pq) (snd pq) s) (combine p q) st).
      change b' with (BCat p q').
      assert (Lq' : length q' = n) by (unfold q'; rewrite map2_length, combine_length; lia).
      assert (Hp : forall i, (i < n)%nat -> dir_ok K (nth i p [])) by (intros; apply (proj1 (Forall_forall _ _) Fp), nth_In; lia).
      assert (Hq : forall i, (i < n)%nat -> dir_ok K (nth i q [])) by (intros; apply (proj1 (Forall_forall _ _) Fq), nth_In; lia).
      assert (St : forall i, (i < n)%nat -> dir_ok K (nth i q' []) /\
        dir_kl (nth i q' []) (nth i p []) - dir_kl (nth i q []) (nth i p []) <=
        sumf (fun k => cnt i k * (elog_next K (BCat p q') i k - elog_next K (BCat p q) i k)) (seq 0 K)).
      { intros i Hi. destruct (dir_weights_step K w lrate (map (fun M => nth i M []) rows) Kp Hw (row_rows i Hi) (nth i p []) (nth i q []) (Hp i Hi) (Hq i Hi) Hl)
          as (A & B & _). cbv zeta in A, B.
        assert (E : nth i q' [] = std_update dir_nat dir_from_nat lrate (nth i p []) (nth i q [])
           (vscale w (colsum K (map cat_stats (map (fun M => nth i M []) rows))))).
        { unfold q'. rewrite (map2_nth _ _ _ _ ([], []) [] []) by (rewrite ?combine_length; lia). rewrite combine_nth by lia. cbn [fst snd]. f_equal.
          unfold st, bg_stats. rewrite (map_nth_lt _ _ _ 0%nat) by (now rewrite seq_length). rewrite seq_nth by auto. cbn [plus]. do 2 f_equal.
          rewrite !map_map. apply map_ext_in. intros M HM. destruct (proj1 (Forall_forall _ _) Hr M HM) as [LM _].
          rewrite (map_nth_lt _ _ _ []) by lia. reflexivity. }
        rewrite <- E in A, B. split; [exact A|]. cbn [elog_next]. eapply Rle_trans; [exact B|]. apply Req_le, sumf_ext. intros k _.
        now rewrite cnt_counts. }
      split.
      + cbn [bg_ok]. split; [auto|]. split; [auto|]. split; [auto|]. apply Forall_forall. intros r Hin.
        destruct (In_nth _ _ [] Hin) as (i & Hi & <-). apply St. lia.
      + cbn [bg_kl]. rewrite Lq, Lq', <- sumf_minus. apply sumf_le. intros i Hi. apply in_seq in Hi.
        destruct (St i) as [A B]; [lia|].
        rewrite <- !(Mx_Proofs.dir_kl_cross K) by (auto; try apply Hp; try apply Hq; lia). exact B.
    - intros (-> & Ho & Lp & Lq & Pp & Pq). cbv zeta.
      change (map (set_rows (BStick n o p q)) rows) with (map (fun M : mat => M) rows). rewrite map_id.
      set (b' := bg_update lrate (bg_stats w n K rows) (BStick n o p q)).
      set (q' := map2 (fun pq s => stick_update lrate (fst pq) (snd pq) s) (combine p q) (set_transform_stats o (bg_stats w n K rows))).
      change b' with (BStick n o p q').
      assert (Up : forall i j, (i < n)%nat -> (j < K)%nat -> let counts := nth i (bg_stats w n K rows) [] in let k := nth j o 0%nat in
        nth k (slice K i q') (0, 0) =
        ((1 - lrate) * fst (nth k (slice K i q) (0, 0)) + lrate * (fst (nth k (slice K i p) (0, 0)) + nth k counts 0),
         (1 - lrate) * snd (nth k (slice K i q) (0, 0)) + lrate * (snd (nth k (slice K i p) (0, 0)) + tail_count o counts j))).
      { intros i j Hi Hj. apply (stick_update_nth o p q i j Ho Lp Lq Hi Hj). }
      assert (Lq' : length q' = (n * K)%nat).
      { destruct (Nat.eq_dec n 0) as [E|E].
        - unfold q'. rewrite map2_length, combine_length, Lp, Lq. rewrite E. simpl. reflexivity.
        - exact (proj1 (stick_update_nth o p q 0 0 Ho Lp Lq ltac:(lia) Kp)). }
      assert (Pq' : positive_sticks q').
      { apply Forall_forall. intros x Hx. destruct (In_nth _ _ (0, 0) Hx) as (a & Ha & <-). rewrite Lq' in Ha.
        destruct (flat_index n K a Ha) as (i & k & Hi & Hk & ->). rewrite <- slice_nth by auto.
        destruct (ord_onto K o Ho k Hk) as (j & Hj & <-). rewrite (Up i j Hi Hj). cbn [fst snd].
        destruct (bg_stats_ok i Hi) as (L & F & _). cbv zeta in L, F. set (counts := nth i (bg_stats w n K rows) []) in *.
        assert (N : forall j, 0 <= nth j counts 0) by (exact (f_nonneg K counts L F)).
        assert (T : 0 <= tail_count o counts j) by (apply sumf_nonneg; intros; apply N).
        set (k := nth j o 0%nat) in *.
        destruct (positive_nth (slice K i p) k (slice_positive K i p Pp)) as (P1 & P2); [rewrite (slice_length n) by auto; auto|].
        destruct (positive_nth (slice K i q) k (slice_positive K i q Pq)) as (Q1 & Q2); [rewrite (slice_length n) by auto; auto|].
        specialize (N k). split; destruct (Req_dec lrate 0) as [->|Hl0]; try lra.
        - assert (0 < lrate * (fst (nth k (slice K i p) (0, 0)) + nth k counts 0)) by (apply Rmult_lt_0_compat; lra).
          assert (0 <= (1 - lrate) * fst (nth k (slice K i q) (0, 0))) by (apply Rmult_le_pos; lra). lra.
        - assert (0 < lrate * (snd (nth k (slice K i p) (0, 0)) + tail_count o counts j)) by (apply Rmult_lt_0_compat; lra).
          assert (0 <= (1 - lrate) * snd (nth k (slice K i q) (0, 0))) by (apply Rmult_le_pos; lra). lra. }
      split; [cbn [bg_ok]; auto 10|].
      assert (Kl : forall c, length c = (n * K)%nat -> bg_kl (BStick n o p c) = sumf (fun i => sb_kl (slice K i c) (slice K i p)) (seq 0 n)).
      { intros c Lc. cbn [bg_kl]. rewrite Lc, sum_slices. apply sumf_ext. intros i Hi. apply in_seq in Hi.
        rewrite (sb_kl_nth K) by (apply (slice_length n); auto; lia). apply sumf_ext. intros k Hk. apply in_seq in Hk.
        rewrite Sk_Proofs.dir_kl_cross. unfold nthp. now rewrite !slice_nth by lia. }
      rewrite !Kl by auto. rewrite <- sumf_minus. apply sumf_le. intros i Hi. apply in_seq in Hi.
      destruct (bg_stats_ok i) as (L & F & C); [lia|]. cbv zeta in L, F, C. set (counts := nth i (bg_stats w n K rows) []) in *.
      assert (St := fixed_order_step K lrate o (slice K i p) (slice K i q) (slice K i q') counts Ho).
      assert (St' : sb_objective (slice K i p) o (slice K i q) counts <= sb_objective (slice K i p) o (slice K i q') counts).
      { apply St; auto using slice_positive; try (apply (slice_length n); auto; lia). intros j Hj. apply Up; auto. lia. }
      unfold sb_objective in St'. rewrite !(stick_ellh K) in St' by (auto; apply (slice_length n); auto; lia).
      rewrite (sumf_ext _ (fun k => nth k counts 0 * stick_elog o (slice K i q') k - nth k counts 0 * stick_elog o (slice K i q) k)).
      2:{ intros k Hk. apply in_seq in Hk. rewrite C by lia. cbn [elog_next]. ring. }
      rewrite sumf_minus. lra.
  Qed.
End Update.

(** ** One step *)
Section Loop.
  Variables (amax : nat -> (nat -> lp) -> nat) (k : kind) (D : nat) (scale : R) (l : ploop) (skel : mset).
  Hypothesis Hscale : 0 <= scale.
  Hypothesis Hnd : NoDup (params skel).
  Hypothesis Hlo : bg_loop_ok l.

  Let K := length (pl_starts l).
  Let N := length (pl_ends l).
  Let U (s : bgst) (x : lutt) : utt := lu_utt l (bg_trans s) x.
  Let fr (s : bgst) (x : lutt) := frames scale (utt_ems skel (bg_pars s) (U s x)) (u_stats (U s x)).

  Lemma bg_K_pos : (0 < K)%nat.
  Proof. destruct Hlo as ((_ & _ & _ & H & _) & _). unfold K. destruct (pl_starts l); [congruence|simpl; lia]. Qed.

  (** Matrix of expected counts *)
  Definition bg_counts (s : bgst) (x : lutt) : mat :=
    map (fun i => map (bg_count scale l skel s x i) (seq 0 K)) (seq 0 N).

  Lemma bg_counts_nth s x i j : (i < N)%nat -> (j < K)%nat -> nth j (nth i (bg_counts s x) []) 0 = bg_count scale l skel s x i j.
  Proof.
    intros Hi Hj. unfold bg_counts. rewrite (map_nth_lt _ _ _ 0%nat) by (now rewrite seq_length). rewrite seq_nth by auto.
    rewrite (map_nth_lt _ _ _ 0%nat) by (now rewrite seq_length). now rewrite seq_nth by auto.
  Qed.

  Lemma bg_evidence s x : bg_good k D l skel s -> bg_utt_ok k D l skel s x -> 0 < evidence (u_graph (U s x)) (fr s x).
  Proof. intros (T & _) (_ & H). apply (utt_evidence k D scale skel); auto. Qed.

  Lemma bg_count_nonneg s x i j : bg_good k D l skel s -> bg_utt_ok k D l skel s x -> 0 <= bg_count scale l skel s x i j.
  Proof.
    intros G H. unfold bg_count. apply expect_nonneg; [now apply bg_evidence|].
    intros p. unfold bigram_count. apply sumf_nonneg. intros t _. destruct (_ && _); lra.
  Qed.

  Lemma bg_counts_ok s x : bg_good k D l skel s -> bg_utt_ok k D l skel s x ->
    length (bg_counts s x) = N /\ Forall (fun r => length r = K /\ Forall (fun v => 0 <= v) r) (bg_counts s x).
  Proof.
    intros G H. unfold bg_counts. split; [now rewrite map_length, seq_length|]. apply Forall_map, Forall_forall. intros i _.
    split; [now rewrite map_length, seq_length|]. apply Forall_map, Forall_forall. intros j _. now apply bg_count_nonneg.
  Qed.

  Lemma bg_rows_counts b g ls (F : nat -> nat -> R) : 0 < evidence g ls -> cg_n g = cg_n (pl_graph l) ->
    (forall i j, F i j = expect g ls (bigram_count (nth i (pl_ends l) 0%nat) (nth j (pl_starts l) 0%nat))) ->
    bg_rows (pl_starts l) (pl_ends l) b (trans_posteriors g ls) = set_rows b (map (fun i => map (F i) (seq 0 K)) (seq 0 N)).
  Proof using Hlo.
    intros Hev Hn HF. destruct Hlo as ((_ & _ & _ & _ & Hs & He) & _).
    set (rowsof := fun e => map (fun (xi : nat -> nat -> num) => map (fun s => num_val (xi e s)) (pl_starts l)) (trans_posteriors g ls)).
    assert (Fl : forall e, Forall (fun r => length r = K) (rowsof e)).
    { intros e. apply Forall_map, Forall_forall. intros xi _. now rewrite map_length. }
    assert (Ec : forall e, In e (pl_ends l) -> colsum K (rowsof e) = map (fun s => expect g ls (bigram_count e s)) (pl_starts l)).
    { intros e Hin. apply vec_ext; [rewrite colsum_length by auto; now rewrite map_length|]. intros j Hj. rewrite colsum_length in Hj by auto.
      rewrite colsum_nth by auto. unfold rowsof. rewrite sumf_map. rewrite (map_nth_lt _ _ _ 0%nat) by exact Hj.
      rewrite <- (trans_sum g ls e (nth j (pl_starts l) 0%nat)).
      - apply sumf_ext. intros xi _. now rewrite (map_nth_lt _ _ _ 0%nat) by exact Hj.
      - exact Hev.
      - rewrite Hn. now apply He.
      - rewrite Hn. apply Hs, nth_In, Hj. }
    assert (Em : map (fun i => map (F i) (seq 0 K)) (seq 0 N) = map (fun e => colsum K (rowsof e)) (pl_ends l)).
    { rewrite <- (map_nth_seq (fun e => colsum K (rowsof e)) (pl_ends l) 0%nat). apply map_ext_in. intros i Hi. apply in_seq in Hi.
      rewrite Ec by (apply nth_In; unfold N in Hi; lia).
      rewrite <- (map_nth_seq (fun s => expect g ls (bigram_count (nth i (pl_ends l) 0%nat) s)) (pl_starts l) 0%nat).
      apply map_ext. intros j. apply HF. }
    rewrite Em. unfold bg_rows, set_rows. fold K. destruct b.
    - rewrite map_map. apply map_ext. intros e. rewrite <- colsum_cat_stats by (auto using bg_K_pos). unfold rowsof. now rewrite map_map.
    - reflexivity.
  Qed.

  Lemma bg_acc_ok s x : bg_good k D l skel s -> bg_utt_ok k D l skel s x ->
    bg_acc amax scale l (inst (forms (bg_pars s)) skel) (bg_set s) (bg_trans s) x =
    Ok (acc_of amax scale skel (bg_pars s) (U s x), set_rows (bg_set s) (bg_counts s x)).
  Proof.
    intros G H. assert (Hev := bg_evidence s x G H). destruct G as (T & _). destruct H as (Eali & H).
    assert (H' := H). destruct H' as (Hst & _ & Ho & Hn & _). fold (U s x) in *.
    set (m := inst (forms (bg_pars s)) skel). assert (Hw : wf m) by (now apply (inst_wf k D)).
    assert (Ho' : forall o, In o (u_order (U s x)) -> (o < size m)%nat).
    { intros o Hin. unfold m. rewrite (inst_size k D); auto. }
    destruct (C80_defined amax m (u_graph (U s x)) (u_order (U s x)) (u_own (U s x)) scale (u_stats (U s x)) Ho' Hst) as ([v c] & E).
    assert (Ea : hmm_accumulate m (cg_n (u_graph (U s x))) (u_order (U s x)) c (u_stats (U s x)) =
                 Some (acc_of amax scale skel (bg_pars s) (U s x))).
    { destruct (utt_rows amax k D scale skel Hnd (bg_pars s) (U s x) T H) as [A _].
      unfold utt_acc in A. fold m in A. rewrite E in A. exact A. }
    unfold bg_acc. fold (U s x). cbv zeta. rewrite E. cbn [bindr snd]. rewrite Ea.
    destruct (hmm_ellh_soft amax m (u_graph (U s x)) (u_order (U s x)) scale (u_stats (U s x)) Hw Ho' _ v c E) as (posts & lnm & Hp & _ & _ & Hc).
    rewrite Hc. cbn [c_trans].
    assert (Eo : u_own (U s x) = true) by (unfold U, lu_utt; now rewrite Eali). rewrite Eo. f_equal. f_equal.
    unfold bg_counts. unfold fr, utt_ems in Hev. apply bg_rows_counts; auto.
    unfold U, lu_utt. now rewrite Eali.
  Qed.

  Section OneStep.
  Variables (w lrate : R) (uw : bool) (group : list nat) (utts : list lutt) (s : bgst).
  Hypothesis Hw : 0 <= w.
  Hypothesis Hrate : 0 <= lrate <= 1.
  Hypothesis HG : bg_good k D l skel s.
  Hypothesis HU : Forall (bg_utt_ok k D l skel s) utts.

  Definition bg_npars : state := apply_step w lrate group (map (acc_of amax scale skel (bg_pars s)) (map (U s) utts)) (bg_pars s).
  Definition bg_nset : bset :=
    if uw then bg_update lrate (bg_stats w N K (map (set_rows (bg_set s)) (map (bg_counts s) utts))) (bg_set s) else bg_set s.
  Definition bg_next : bgst :=
    {| bg_set := bg_nset; bg_pars := bg_npars;
       bg_trans := if uw then bg_tune l bg_nset (bg_trans s) else bg_trans s |}.
  Definition bg_dnext (i j : nat) : R := elog_next K bg_nset i j - elog_next K (bg_set s) i j.
  Definition bg_dused (i j : nat) : R := elog_used K bg_nset i j - elog_used K (bg_set s) i j.

  Lemma bg_step_eq : bg_step amax scale w lrate uw group l skel utts s = Ok bg_next.
  Proof using Hnd Hlo HG HU.
    clear Hrate.
    set (f := fun x => (acc_of amax scale skel (bg_pars s) (U s x), set_rows (bg_set s) (bg_counts s x))).
    assert (E : mapM (bg_acc amax scale l (inst (forms (bg_pars s)) skel) (bg_set s) (bg_trans s)) utts = Ok (map f utts)).
    { assert (G : forall us, Forall (bg_utt_ok k D l skel s) us ->
        mapM (bg_acc amax scale l (inst (forms (bg_pars s)) skel) (bg_set s) (bg_trans s)) us = Ok (map f us)).
      { induction us as [|x us IH]; intros F; [reflexivity|]. assert (Hx := Forall_inv F). assert (F' := Forall_inv_tail F). cbn [map mapM].
        rewrite (bg_acc_ok s x HG Hx). cbn [bindr]. rewrite (IH F'). reflexivity. }
      exact (G utts HU). }
    unfold bg_step. rewrite E. cbn [bindr]. rewrite !map_map. unfold bg_next, bg_nset, bg_npars. rewrite !map_map. unfold f. cbn [fst snd].
    destruct uw; reflexivity.
  Qed.

  Lemma bg_U_all : Forall (utt_ok k D skel) (map (U s) utts).
  Proof. apply Forall_map. eapply Forall_impl; [|exact HU]. intros x [_ H]. exact H. Qed.

  Lemma bg_npars_length p : length (bg_npars p) = length (bg_pars s p).
  Proof.
    unfold bg_npars, apply_step. destruct (existsb _ group); [|reflexivity]. rewrite map2_length, seq_length. lia.
  Qed.

  Lemma bg_cell_step q : In q (allcells (bg_pars s) (params skel)) ->
    let c := cell_at (bg_pars s) q in let c' := cell_at bg_npars q in
    (leaf_cell k D c -> leaf_cell k D c') /\ (forall n, weights_cell n c -> weights_cell n c') /\
    cell_kl c' - cell_kl c <=
    sumf (fun i => w * sumf (fun u => urow scale skel (bg_pars s) u q i) (map (U s) utts) * (nth i (form bg_npars q) 0 - nth i (form (bg_pars s) q) 0))
      (seq 0 (length (form (bg_pars s) q))).
  Proof.
    intros Hq. destruct HG as (T & _).
    exact (cell_step amax k D scale skel Hscale Hnd (bg_pars s) (map (U s) utts) w lrate group q T bg_U_all Hw Hrate Hq).
  Qed.

  Lemma bg_npars_typed : typed k D bg_npars skel.
  Proof.
    destruct HG as (T & _). apply (typed_keep k D (bg_pars s)); auto. intros p Hp. split; [apply bg_npars_length|].
    intros i Hi. destruct (bg_cell_step (p, i)) as (A & B & _); [now apply allcells_in|]. split; [exact A|exact B].
  Qed.

  Lemma bg_rows_ok : Forall (fun M => length M = N /\ Forall (fun r => length r = K /\ Forall (fun v => 0 <= v) r) M) (map (bg_counts s) utts).
  Proof. apply Forall_map. eapply Forall_impl; [|exact HU]. intros x Hx. now apply bg_counts_ok. Qed.

  Lemma bg_set_gain : bg_ok N K bg_nset /\
    bg_kl bg_nset - bg_kl (bg_set s) <=
    w * sumf (fun x => sumf (fun i => sumf (fun j => bg_count scale l skel s x i j * bg_dnext i j) (seq 0 K)) (seq 0 N)) utts.
  Proof.
    assert (HG' := HG). destruct HG' as (_ & W & _). fold K N in W.
    assert (E : sumf (fun i => sumf (fun j => w * sumf (fun M => nth j (nth i M []) 0) (map (bg_counts s) utts) * bg_dnext i j) (seq 0 K)) (seq 0 N) =
      w * sumf (fun x => sumf (fun i => sumf (fun j => bg_count scale l skel s x i j * bg_dnext i j) (seq 0 K)) (seq 0 N)) utts).
    { symmetry. rewrite sumf_swap, <- sumf_scal_l. apply sumf_ext. intros i Hi. apply in_seq in Hi. rewrite sumf_swap, <- sumf_scal_l.
      apply sumf_ext. intros j Hj. apply in_seq in Hj. rewrite sumf_map, sumf_scal_r, Rmult_assoc. f_equal. f_equal.
      apply sumf_ext. intros x _. symmetry. apply bg_counts_nth; lia. }
    rewrite <- E. unfold bg_dnext, bg_nset. destruct uw.
    - exact (bg_gain N K w lrate (map (bg_counts s) utts) bg_K_pos Hw Hrate bg_rows_ok (bg_set s) W).
    - split; [exact W|]. rewrite sumf_zero; [lra|]. intros i _. apply sumf_zero. intros; ring.
  Qed.

  Lemma bg_next_tuned : bg_tuned l bg_nset (bg_trans bg_next) /\
    (forall i j, ~ (In i (pl_ends l) /\ In j (pl_starts l)) -> bg_trans bg_next i j = bg_trans s i j).
  Proof.
    destruct bg_set_gain as (W & _). destruct HG as (_ & W0 & Tu). unfold bg_next, bg_nset in *. cbn [bg_trans].
    destruct uw; [|split; [exact Tu|reflexivity]]. apply bg_tune_tuned; auto. apply Tu.
  Qed.

  Lemma bg_next_good : bg_good k D l skel bg_next.
  Proof. split; [apply bg_npars_typed|]. split; [apply bg_set_gain|apply bg_next_tuned]. Qed.

  Definition bg_pathgain (p : list nat) : R :=
    sumf (fun i => sumf (fun j => bigram_count (nth i (pl_ends l) 0%nat) (nth j (pl_starts l) 0%nat) p * bg_dused i j) (seq 0 K)) (seq 0 N).

  Lemma bg_prior_new x T p : lu_ali x = None ->
    prior_prob (u_graph (U bg_next x)) T p = prior_prob (u_graph (U s x)) T p * exp (bg_pathgain p).
  Proof.
    intros Ea. unfold U, lu_utt. rewrite Ea. cbn [u_graph].
    destruct bg_next_tuned as [T2 Ho]. destruct HG as (_ & _ & T1).
    rewrite (prior_change _ _ _ T p (bg_change l _ _ _ _ Hlo T1 T2 Ho)), edge2_counts. reflexivity.
  Qed.

  Lemma bg_same_utt x : u_order (U bg_next x) = u_order (U s x) /\ u_stats (U bg_next x) = u_stats (U s x) /\
    cg_n (u_graph (U bg_next x)) = cg_n (u_graph (U s x)) /\ u_own (U bg_next x) = u_own (U s x).
  Proof. unfold U, lu_utt. destruct (lu_ali x) as [[g o]|]; cbn; auto. Qed.

  Lemma bg_next_utt x : bg_utt_ok k D l skel s x -> bg_utt_ok k D l skel bg_next x.
  Proof.
    intros (Ea & H). split; [exact Ea|]. revert H. fold (U s x) (U bg_next x). destruct (bg_same_utt x) as (E1 & E2 & E3 & _).
    intros (A & B & C & E & p & Hp & Hpos). unfold utt_ok. rewrite E1, E2, E3.
    split; [exact A|]. split; [exact B|]. split; [exact C|]. split; [exact E|]. exists p. split; [exact Hp|].
    rewrite bg_prior_new by exact Ea. apply Rmult_lt_0_compat; [exact Hpos|apply exp_pos].
  Qed.

  Definition bg_egain (x : lutt) : R := sumf (fun i => sumf (fun j => bg_count scale l skel s x i j * bg_dused i j) (seq 0 K)) (seq 0 N).

  Lemma bg_pathgain_expect x : expect (u_graph (U s x)) (fr s x) bg_pathgain = bg_egain x.
  Proof.
    unfold bg_pathgain, bg_egain. rewrite expect_sumf. apply sumf_ext. intros i _. apply expect_sum.
  Qed.

  Lemma bg_utt_gain x : bg_utt_ok k D l skel s x ->
    let Q := allcells (bg_pars s) (params skel) in
    sumf (fun q => sumf (fun i => urow scale skel (bg_pars s) (U s x) q i * (nth i (form bg_npars q) 0 - nth i (form (bg_pars s) q) 0))
       (seq 0 (length (form (bg_pars s) q)))) Q
    + bg_egain x <=
    loglik scale skel bg_npars (u_graph (U bg_next x)) (U bg_next x) - loglik scale skel (bg_pars s) (u_graph (U s x)) (U s x).
  Proof.
    intros Hx Q. assert (Hx' := bg_next_utt x Hx). assert (T := HG). destruct T as (T & _). assert (T' := bg_npars_typed).
    assert (P1 := bg_evidence s x HG Hx). assert (P2 := bg_evidence bg_next x bg_next_good Hx').
    rewrite <- bg_pathgain_expect. unfold loglik. unfold fr in *. cbn [bg_next bg_pars] in P2. fold bg_next in P2.
    destruct (bg_same_utt x) as (E1 & E2 & E3 & _).
    assert (Ee : utt_ems skel bg_npars (U bg_next x) = utt_ems skel bg_npars (U s x)) by (unfold utt_ems; now rewrite E1).
    rewrite Ee, E2 in *. unfold urow. destruct Hx as (Ea & Hx). fold (U s x) in Hx.
    rewrite (utt_ems_einst k D skel (bg_pars s) (U s x) T Hx) in *.
    rewrite (utt_ems_einst k D skel bg_npars (U s x) T' Hx) in *.
    assert (Et := sk_ems_typed k D skel (bg_pars s) (U s x) T Hx). assert (Et' := sk_ems_typed k D skel bg_npars (U s x) T' Hx).
    destruct Hx as (Hne & (xs & Exs & Hxs) & Ho & Hn & _).
    apply (utt_gain_graph k D (bg_pars s) bg_npars (params skel) Q); auto.
    - apply allcells_nodup, Hnd.
    - intros p _. now apply bg_prior_new.
    - intros p i Hp Hi. now apply allcells_in.
    - unfold sk_ems. now rewrite map_length.
    - change (U s x) with (lu_utt l (bg_trans s) x). fold (U s x). rewrite Exs. apply Forall_map. eapply Forall_impl; [|exact Hxs]. intros y Hy. now apply suff_length.
  Qed.

  Lemma bg_next_bound :
    bg_bound scale w l skel utts s <= bg_bound scale w l skel utts bg_next +
      w * sumf (fun x => sumf (fun i => sumf (fun j => bg_count scale l skel s x i j * (bg_dnext i j - bg_dused i j)) (seq 0 K)) (seq 0 N)) utts.
  Proof.
    set (st := bg_pars s). set (Q := allcells st (params skel)).
    assert (EQ : allcells bg_npars (params skel) = Q).
    { unfold Q, allcells. rewrite !flat_map_concat_map. f_equal. apply map_ext. intros p. f_equal. f_equal. apply bg_npars_length. }
    unfold bg_bound. rewrite !total_kl_cells. cbn [bg_next bg_pars bg_set]. rewrite EQ. fold st Q.
    change (if uw then bg_tune l bg_nset (bg_trans s) else bg_trans s) with (bg_trans bg_next).
    set (lin := fun x => sumf (fun q => sumf (fun i => urow scale skel st (U s x) q i * (nth i (form bg_npars q) 0 - nth i (form st q) 0))
       (seq 0 (length (form st q)))) Q).
    assert (G : sumf (fun x => lin x + bg_egain x) utts <=
      sumf (fun x => loglik scale skel bg_npars (u_graph (U bg_next x)) (U bg_next x) - loglik scale skel st (u_graph (U s x)) (U s x)) utts).
    { apply sumf_le. intros x Hx. apply bg_utt_gain. exact (proj1 (Forall_forall _ _) HU x Hx). }
    rewrite sumf_minus, sumf_plus in G. apply (Rmult_le_compat_l w) in G; [|exact Hw].
    assert (C : sumf (fun q => cell_kl (cell_at bg_npars q) - cell_kl (cell_at st q)) Q <=
      sumf (fun q => sumf (fun i => w * sumf (fun u => urow scale skel st u q i) (map (U s) utts) * (nth i (form bg_npars q) 0 - nth i (form st q) 0))
        (seq 0 (length (form st q)))) Q).
    { apply sumf_le. intros q Hq. now apply bg_cell_step. }
    rewrite sumf_minus in C.
    assert (E : sumf (fun q => sumf (fun i => w * sumf (fun u => urow scale skel st u q i) (map (U s) utts) * (nth i (form bg_npars q) 0 - nth i (form st q) 0))
        (seq 0 (length (form st q)))) Q = w * sumf lin utts).
    { unfold lin. rewrite sumf_swap, <- sumf_scal_l. apply sumf_ext. intros q _. rewrite sumf_swap, <- sumf_scal_l.
      apply sumf_ext. intros i _. rewrite sumf_map, Rmult_assoc, <- sumf_scal_r. reflexivity. }
    rewrite E in C. destruct bg_set_gain as (_ & B).
    assert (Ec : sumf (fun x => sumf (fun i => sumf (fun j => bg_count scale l skel s x i j * bg_dnext i j) (seq 0 K)) (seq 0 N)) utts =
      sumf (fun x => sumf (fun i => sumf (fun j => bg_count scale l skel s x i j * (bg_dnext i j - bg_dused i j)) (seq 0 K)) (seq 0 N)) utts +
      sumf bg_egain utts).
    { rewrite <- sumf_plus. apply sumf_ext. intros x _. unfold bg_egain. rewrite <- sumf_plus. apply sumf_ext. intros i _.
      rewrite <- sumf_plus. apply sumf_ext. intros j _. ring. }
    rewrite Ec in B. unfold U in G. lra.
  Qed.
  End OneStep.
End Loop.

(** Lemmas on the variational training of mixtures. *)
From Coq Require Import Reals List Arith Bool Lia Lra Permutation.
From Verif Require Import Prelude Vec Gibbs Lgamma FB_Model FB_Spec FB_Proofs Edit_Model Dec_Model Set_Model Set_Spec Set_Proofs
  HMM_Model HMM_Spec HMM_Proofs HMM_Props Dist_Model Dist_Spec Dist_Proofs NG_Proofs KL_Proofs Dist_Props Mat NW_Model NW_Spec NW_Proofs NW_KL NW_Props
  SB_Model SB_Spec SB_Proofs SB_Props Sk_Model Sk_Spec Sk_Proofs Sk_Props Vt_Model Vt_Spec Vt_Proofs Vt_Props Vl_Proofs Vl_Props Mx_Model Mx_Spec.
Import ListNotations.
Local Open Scope R_scope.

(** ** The weights *)
Lemma by_stick_unit n k (q : list (R * R)) o : NoDup o -> (forall j, In j o -> (j < n)%nat) ->
  by_stick (fun j => nth j (unit_row n k) 0) (fun j => e_ln_v (nthp q j)) (fun j => e_ln_rest (nthp q j)) o =
  if existsb (Nat.eqb k) o then stick_elog o q k else 0.
Proof.
  intros N Hl. induction N as [|j t Hj N IH]; [reflexivity|]. cbn [by_stick existsb stick_elog].
  rewrite IH by (intros; apply Hl; now right). rewrite unit_row_nth by (apply Hl; now left).
  assert (E : sumf (fun j => nth j (unit_row n k) 0) t = if existsb (Nat.eqb k) t then 1 else 0).
  { clear IH Hj. assert (Hl' : forall j, In j t -> (j < n)%nat) by (intros; apply Hl; now right). clear Hl.
    induction N as [|i t Hi N IH]; [reflexivity|]. rewrite sumf_cons. cbn [existsb].
    rewrite unit_row_nth by (apply Hl'; now left). rewrite IH by (intros; apply Hl'; now right).
    rewrite (Nat.eqb_sym k i). destruct (Nat.eqb_spec i k) as [->|]; cbn [orb].
    - destruct (existsb (Nat.eqb k) t) eqn:Ex; [|lra]. apply existsb_exists in Ex.
      destruct Ex as (y & Hy & Ey). apply Nat.eqb_eq in Ey. subst y. contradiction.
    - lra. }
  rewrite E, (Nat.eqb_sym k j). destruct (Nat.eqb_spec j k) as [->|Hn]; cbn [orb].
  - destruct (existsb (Nat.eqb k) t) eqn:Ex.
    + apply existsb_exists in Ex. destruct Ex as (y & Hy & Ey). apply Nat.eqb_eq in Ey. subst y. contradiction.
    + unfold nthp. lra.
  - destruct (existsb (Nat.eqb k) t); unfold nthp; lra.
Qed.

Lemma order_nodup n o : is_order n o -> NoDup o.
Proof. intros H. eapply Permutation_NoDup; [symmetry; exact H|apply seq_NoDup]. Qed.

Lemma stick_logw n o q k : is_order n o -> length q = n -> (k < n)%nat ->
  nth k (sb_log_weights o q) 0 = stick_elog o q k.
Proof.
  intros Ho Hq Hk. assert (L := sb_log_weights_length n o q Ho).
  rewrite <- (dot_unit_row n) by auto. fold (sb_ellh o q (unit_row n k)).
  rewrite (ellh_by_stick n) by (auto using unit_row_length).
  rewrite by_stick_unit.
  - replace (existsb (Nat.eqb k) o) with true; [reflexivity|]. symmetry. apply existsb_exists. exists k.
    split; [|apply Nat.eqb_refl]. apply (Permutation_in _ (Permutation_sym Ho)), in_seq. lia.
  - now apply (order_nodup n).
  - intros j. now apply ord_lt.
Qed.

Lemma stick_ellh n o q counts : is_order n o -> length q = n -> length counts = n ->
  sb_ellh o q counts = sumf (fun k => nth k counts 0 * stick_elog o q k) (seq 0 n).
Proof.
  intros Ho Hq Hc. unfold sb_ellh. rewrite dot_nth by (rewrite (sb_log_weights_length n); auto).
  rewrite Hc. apply sumf_ext. intros k Hk. apply in_seq in Hk. rewrite (stick_logw n) by (auto; lia). reflexivity.
Qed.

Lemma map_ellh_eye n o q : is_order n o -> length q = n ->
  length (map (sb_ellh o q) (eye n)) = n /\
  forall k, (k < n)%nat -> nth k (map (sb_ellh o q) (eye n)) 0 = stick_elog o q k.
Proof.
  intros Ho Hq. split; [now rewrite map_length, eye_length|]. intros k Hk.
  rewrite (map_nth_lt _ _ _ []) by (now rewrite eye_length). rewrite eye_nth by auto.
  unfold sb_ellh. rewrite (dot_unit_row n) by (auto using (sb_log_weights_length n o q Ho)).
  now apply (stick_logw n).
Qed.

Lemma logw_ok n c : mxw_ok n c -> length (mx_log_weights n c) = n /\
  forall k, (k < n)%nat -> nth k (mx_log_weights n c) 0 = elog_weight c k.
Proof.
  destruct c as [p q|p o q|g h]; cbn [mxw_ok mx_log_weights elog_weight].
  - intros (_ & Lq & Hn & _). assert (Le : length (dir_ess q) = n) by (rewrite dir_ess_length; auto; intros ->; simpl in Lq; lia).
    rewrite mixture_log_weights_eq. split; [now rewrite cat_logprobs_length|]. intros k Hk. unfold cat_logprobs.
    rewrite (map_nth_lt _ _ _ 0%nat), seq_nth by (rewrite ?seq_length, Le; auto). cbn [plus].
    now rewrite cat_logprob_ess by (rewrite Lq; auto).
  - intros (Ho & Lq & _). now apply map_ellh_eye.
  - intros (Ho & Lq & _). now apply map_ellh_eye.
Qed.

Lemma dir_kl_cross n q p : dir_ok n q -> dir_ok n p -> dir_kl q p = dir_cross q q - dir_cross q p.
Proof.
  intros (Lq & Hn & _) (Lp & _). assert (Hne : q <> []) by (intros ->; simpl in Lq; lia).
  rewrite dir_kl_dkl by congruence. unfold dkl, dir_cross.
  rewrite (rsum_map2_index _ _ _ 0 0) by congruence. rewrite Lq.
  assert (E : forall l : list R, sumf lgamma l = rsum (map lgamma l)) by reflexivity.
  assert (E2 : forall l : list R, sumf (fun x => x) l = rsum l) by (intros l; unfold sumf; now rewrite map_id).
  rewrite !E, !E2.
  rewrite (sumf_ext (fun k => (digamma (nth k q 0) - digamma (rsum q)) * (nth k p 0 - nth k q 0))
    (fun k => (nth k p 0 - 1) * (digamma (nth k q 0) - digamma (rsum q)) - (nth k q 0 - 1) * (digamma (nth k q 0) - digamma (rsum q))))
    by (intros; ring).
  rewrite sumf_minus. ring.
Qed.

(** What is reported is the divergence, except with a hyper-prior. *)
Lemma weights_kl_eq n c : mxw_ok n c -> match c with WHyper _ _ => True | _ => mx_weights_kl c = weights_kl c end.
Proof.
  destruct c as [p q|p o q|g h]; cbn [mxw_ok mx_weights_kl weights_kl]; [| |auto].
  - intros (Hp & Hq). now apply (dir_kl_cross n).
  - intros (Ho & Lq & Pq & ab & A & B & Hp). assert (Lp := prior_length n ab p Hp).
    rewrite (sb_kl_nth n) by auto. rewrite Lq. apply sumf_ext. intros k _. rewrite dir_kl_beta.
    unfold beta_cross, nthp. ring.
Qed.

(** Counts of the components *)
Definition mx_counts (w : R) (resps : mat) (j : nat) : R := w * sumf (fun r => nth j r 0) resps.

Section Weights.
  Variables (sort : list R -> list nat) (n : nat) (w lrate : R) (resps : mat).
  Hypothesis Hsort : forall counts, sorts_desc counts (sort counts).
  Hypothesis Hn : (0 < n)%nat.
  Hypothesis Hw : 0 <= w.
  Hypothesis Hr : Forall (fun r => length r = n /\ Forall (fun v => 0 <= v) r) resps.

  Lemma rows_length : Forall (fun r => length r = n) resps.
  Proof using Hr. eapply Forall_impl; [|exact Hr]. intros r [A _]; exact A. Qed.

  Lemma stick_counts : let counts := vscale w (colsum n resps) in
    length counts = n /\ Forall (fun x => 0 <= x) counts /\ forall j, (j < n)%nat -> nth j counts 0 = mx_counts w resps j.
  Proof using Hw Hr.
    intros counts. assert (L : length counts = n) by (unfold counts; rewrite vscale_length; apply colsum_length, rows_length).
    assert (E : forall j, (j < n)%nat -> nth j counts 0 = mx_counts w resps j).
    { intros j Hj. unfold counts. rewrite vscale_nth, colsum_nth by (auto using rows_length). reflexivity. }
    split; [exact L|]. split; [|exact E]. apply Forall_forall. intros x Hx. destruct (In_nth _ _ 0 Hx) as (j & Hj & <-).
    rewrite L in Hj. rewrite E by auto. apply Rmult_le_pos; [auto|]. apply sumf_nonneg. intros r Hin.
    destruct (proj1 (Forall_forall _ _) Hr r Hin) as [Lr Fr]. apply (proj1 (Forall_forall _ _) Fr), nth_In. now rewrite Lr.
  Qed.

  Lemma dir_weights_step p q : dir_ok n p -> dir_ok n q -> 0 <= lrate <= 1 ->
    let q' := std_update dir_nat dir_from_nat lrate p q (vscale w (colsum n (map cat_stats resps))) in
    dir_ok n q' /\
    dir_kl q' p - dir_kl q p <= sumf (fun j => mx_counts w resps j *
      ((digamma (nth j q' 0) - digamma (rsum q')) - (digamma (nth j q 0) - digamma (rsum q)))) (seq 0 n) /\
    forall j, (j < n)%nat -> nth j q' 0 = (1 - lrate) * nth j q 0 + lrate * (nth j p 0 + mx_counts w resps j).
  Proof using Hn Hw Hr.
    intros Hp Hq Hl q'. set (data := map (fun r => (w, r)) resps).
    assert (Wc : weights_cell n (CWeights p q)) by (split; auto).
    assert (Fd : Forall (fun gx => 0 <= fst gx /\ fits 0 (CWeights p q) (snd gx)) data).
    { unfold data. apply Forall_map. eapply Forall_impl; [|exact Hr]. intros r [Lr Fr]. cbn [fst snd fits].
      split; [exact Hw|]. split; [|exact Fr]. rewrite Lr. symmetry. apply Hp. }
    assert (Lc : forall r, In r resps -> r <> [] /\ length r = n).
    { intros r Hin. destruct (proj1 (Forall_forall _ _) Hr r Hin) as [Lr _]. split; [intros ->; simpl in Lr; lia|exact Lr]. }
    assert (Hlen : forall gx, In gx data -> length (cat_suff_stats (snd gx)) = n).
    { intros gx Hin. unfold data in Hin. apply in_map_iff in Hin. destruct Hin as (r & <- & Hin). cbn [snd].
      destruct (Lc r Hin). now rewrite cat_suff_stats_length. }
    set (stats := wstats n cat_suff_stats data).
    assert (Lst : length stats = n) by (unfold stats; now apply wstats_length).
    assert (Lf : length (cell_form (CWeights p q)) = n) by (now apply weights_form_length).
    assert (Es : vscale w (colsum n (map cat_stats resps)) = stats).
    { assert (Fr : Forall (fun r => length r = n) (map cat_stats resps)).
      { apply Forall_map, Forall_forall. intros r Hin. destruct (Lc r Hin) as [A B].
        change (cat_stats r) with (cat_suff_stats r). now rewrite cat_suff_stats_length. }
      apply vec_ext; [rewrite vscale_length, colsum_length by exact Fr; now symmetry|].
      intros j Hj. rewrite vscale_length, colsum_length in Hj by exact Fr.
      rewrite vscale_nth, colsum_nth by auto. unfold stats. rewrite wstats_nth by auto. unfold data.
      rewrite !sumf_map, <- sumf_scal_l. reflexivity. }
    destruct (weights_step n 0 lrate (CWeights p q) data Wc Hl Fd) as [A B]. cbv zeta in A, B. rewrite Lf in A, B.
    change (wstats n (cell_fn (CWeights p q)) data) with stats in A, B. unfold q'. rewrite Es.
    change (cell_update lrate stats (CWeights p q)) with (CWeights p (std_update dir_nat dir_from_nat lrate p q stats)) in A, B.
    set (q1 := std_update dir_nat dir_from_nat lrate p q stats) in *. destruct A as [_ Hq1]. split; [exact Hq1|].
    assert (Hdot : forall x, dir_ok n x -> dot stats (dir_ess x) =
      sumf (fun j => mx_counts w resps j * (digamma (nth j x 0) - digamma (rsum x))) (seq 0 n)).
    { intros x (Lx & _). assert (Le : length (dir_ess x) = n) by (rewrite dir_ess_length; auto; intros ->; simpl in Lx; lia).
      rewrite dot_nth, Lst by congruence.
      rewrite (sumf_ext _ (fun i => sumf (fun r => w * (nth i (cat_suff_stats r) 0 * nth i (dir_ess x) 0)) resps)).
      2:{ intros i Hi. apply in_seq in Hi. unfold stats. rewrite wstats_nth by (auto; lia). unfold data.
          rewrite sumf_map, <- sumf_scal_r. apply sumf_ext. intros r _. cbn [fst snd]. ring. }
      rewrite sumf_swap. unfold mx_counts.
      rewrite (sumf_ext (fun j => w * sumf (fun r => nth j r 0) resps * (digamma (nth j x 0) - digamma (rsum x)))
        (fun j => sumf (fun r => w * (nth j r 0 * cat_logprob (dir_ess x) j)) resps)).
      2:{ intros j Hj. apply in_seq in Hj. rewrite cat_logprob_ess by (rewrite Lx; lia).
          rewrite sumf_scal_l, sumf_scal_r. ring. }
      symmetry. rewrite sumf_swap. symmetry. apply sumf_ext. intros r Hin. destruct (Lc r Hin) as [Nr Lr]. rewrite !sumf_scal_l. f_equal.
      assert (Ld := cat_suff_stats_length r Nr). rewrite Lr in Ld.
      replace (seq 0 n) with (seq 0 (length (cat_suff_stats r))) at 1 by (now rewrite Ld).
      rewrite <- dot_nth by congruence. rewrite dot_cat by (auto; congruence). now rewrite Lr. }
    cbn [cell_form cell_kl] in B. rewrite !Hdot in B by auto. split.
    2:{ intros j Hj. assert (Fx : frames_of_dim n data).
        { unfold frames_of_dim, data. apply Forall_map, Forall_forall. intros r Hin. cbn [snd]. now apply Lc. }
        destruct (C33_count_conjugacy n lrate p q data j Hj (proj1 Hp) (proj1 Hq) Fx) as (_ & _ & E).
        unfold q1, stats. rewrite E. do 3 f_equal. unfold Sw, data, mx_counts. rewrite sumf_map. cbn [fst snd].
        apply sumf_scal_l. }
    rewrite (sumf_ext _ (fun j => mx_counts w resps j * (digamma (nth j q1 0) - digamma (rsum q1)) -
      mx_counts w resps j * (digamma (nth j q 0) - digamma (rsum q)))) by (intros; ring).
    rewrite sumf_minus. lra.
  Qed.

  Lemma weights_gain c : mxw_ok n c -> rate_ok c lrate true ->
    let c' := mx_weights_update sort lrate (mx_weights_stats w n c resps) c in
    mxw_ok n c' /\
    weights_kl c' - weights_kl c <=
    sumf (fun j => mx_counts w resps j * (elog_weight c' j - elog_weight c j)) (seq 0 n).
  Proof.
    intros Hc [Hl Hrate] c'. specialize (Hrate eq_refl).
    destruct stick_counts as (Lc & Fc & Ec). cbv zeta in Lc, Fc, Ec.
    destruct c as [p q|p o q|g h]; unfold c'; cbn [mx_weights_update mx_weights_stats].
    - destruct Hc as [Hp Hq]. destruct (dir_weights_step p q Hp Hq Hl) as (A & B & _). cbv zeta in A, B.
      split; [split; auto|]. cbn [weights_kl elog_weight]. rewrite <- !(dir_kl_cross n) by auto. exact B.
    - subst lrate. set (counts := vscale w (colsum n resps)) in *.
      destruct Hc as (Ho & Lq & Pq & ab & P1 & P2 & Hp). assert (Lp := prior_length n ab p Hp).
      assert (Hs := Hsort counts).
      assert (St := C165_full_step sort ab n p o q counts P1 P2 Hp Ho Lq Lc Pq Fc Hs).
      assert (U := C43_update sort 1 p q counts n Lp Lq Lc Hs).
      assert (Pp : positive_sticks p).
      { unfold same_prior in Hp. rewrite Hp. apply Forall_forall. intros x Hx. apply repeat_spec in Hx. subst x. auto. }
      assert (Pos := C43_positive_forever sort 1 p q counts ltac:(lia) ltac:(lia) Hs Pp Pq Fc ltac:(lra)).
      destruct (sb_update sort 1 p q counts) as (o', q'). cbn [fst snd] in *.
      destruct U as (-> & Lq' & _). destruct Hs as (Ho' & _). rewrite Lc in Ho'.
      assert (Ok' : mxw_ok n (WStick p (sort counts) q')).
      { split; [exact Ho'|]. split; [exact Lq'|]. split; [exact Pos|]. exists ab. auto. }
      split; [exact Ok'|]. assert (K' := weights_kl_eq n _ Ok'). cbn iota in K'.
      assert (K := weights_kl_eq n (WStick p o q)). cbn iota in K. rewrite <- K', <- K.
      2:{ split; [exact Ho|]. split; [exact Lq|]. split; [exact Pq|]. exists ab. auto. }
      cbn [mx_weights_kl elog_weight]. unfold sb_objective in St.
      rewrite !(stick_ellh n) in St by auto.
      rewrite (sumf_ext _ (fun k => nth k counts 0 * stick_elog (sort counts) q' k - nth k counts 0 * stick_elog o q k)).
      2:{ intros j Hj. apply in_seq in Hj. rewrite Ec by lia. ring. }
      rewrite sumf_minus. lra.
    - subst lrate. set (counts := vscale w (colsum n resps)) in *.
      destruct Hc as (Ho & Lq & Pq & Hg & Hgh & Hp). assert (Hs := Hsort counts).
      assert (Hh : hyper_ok n h) by (split; [exact Ho|]; split; [exact Lq|]; split; [exact Pq|]; split; [exact Hgh|exact Hp]).
      destruct (C166_full_step sort n g h counts Hh Hg Lc Fc Hs) as [Hh' B]. cbv zeta in Hh', B.
      set (h' := hyper_update sort 1 g h counts) in *. destruct Hh' as (Ho' & Lq' & Pq' & Hgh' & Hp').
      split; [split; [exact Ho'|]; split; [exact Lq'|]; split; [exact Pq'|]; split; [exact Hg|]; split; [exact Hgh'|exact Hp']|].
      assert (J : forall x, is_order n (h_ord x) -> length (h_sticks x) = n ->
        joint_of g x counts = sumf (fun k => nth k counts 0 * stick_elog (h_ord x) (h_sticks x) k) (seq 0 n) - weights_kl (WHyper g x)).
      { intros x Hox Lx. rewrite <- (stick_ellh n) by auto. rewrite (ellh_by_stick n), <- by_stick_spec by auto.
        unfold joint_of, joint_bound, Sk_Props.shape, Sk_Props.rate, nthp. cbn [weights_kl].
        rewrite (sumf_ext (fun q => beta_cross q q - _) (fun q => - (digamma (nth 0 (g_shape (h_gamma x)) 0) - ln (nth 0 (g_rate (h_gamma x)) 0) +
          (nth 0 (g_shape (h_gamma x)) 0 / nth 0 (g_rate (h_gamma x)) 0 - 1) * e_ln_rest q - beta_cross q q))) by (intros; ring).
        rewrite sumf_opp. cbn zeta. ring. }
      rewrite !J in B by auto. cbn [elog_weight].
      rewrite (sumf_ext (fun j => mx_counts w resps j * _) (fun k => nth k counts 0 * stick_elog (h_ord h') (h_sticks h') k - nth k counts 0 * stick_elog (h_ord h) (h_sticks h) k)).
      2:{ intros j Hj. apply in_seq in Hj. rewrite Ec by lia. ring. }
      rewrite sumf_minus. lra.
  Qed.
End Weights.

(** ** The components *)
Lemma rsum_map2_map {A} (f : list R -> list R -> R) (a b : A -> list R) l :
  rsum (map2 f (map a l) (map b l)) = sumf (fun x => f (a x) (b x)) l.
Proof. induction l as [|x l IH]; [reflexivity|]. cbn [map map2 rsum]. rewrite IH. reflexivity. Qed.

Section Comps.
  Variables (k : kind) (D : nat) (skel : mset) (w lrate : R) (group : list nat).
  Hypothesis Hnd : NoDup (params skel).
  Hypothesis Hw : 0 <= w.
  Hypothesis Hl : 0 <= lrate <= 1.
  (** the frames with their responsibilities *)
  Variable FR : list (list R * list R).
  Hypothesis HFR : Forall (fun yr => frame_ok k D (fst yr) /\ length (snd yr) = size skel /\ Forall (fun v => 0 <= v) (snd yr)) FR.
  Variable st : state.
  Hypothesis T : typed k D st skel.

  Definition cacc : sdict :=
    accumulate (inst (forms st) skel) (map (fun yr => suff k (fst yr)) FR) (map snd FR).

  Definition crow (q : nat * nat) (i : nat) : R :=
    sumf (fun yr => sumf (fun j => em_acc q (suff k (fst yr)) i (einst (forms st) (nth j (denote skel) e0)) (nth j (snd yr) 0))
      (seq 0 (size skel))) FR.

  Lemma fr_in yr : In yr FR -> frame_ok k D (fst yr) /\ length (snd yr) = size skel /\ Forall (fun v => 0 <= v) (snd yr).
  Proof using HFR. intros H. exact (proj1 (Forall_forall _ _) HFR yr H). Qed.

  Lemma crow_spec q : In q (allcells st (params skel)) ->
    length (row_of (fst q) (snd q) cacc) = length (form st q) /\
    forall i, (i < length (form st q))%nat -> nth i (row_of (fst q) (snd q) cacc) 0 = crow q i.
  Proof using Hnd HFR T.
    intros Hq. destruct q as [p r]. apply allcells_in in Hq. destruct Hq as [Hp Hr]. cbn [fst snd].
    set (m := inst (forms st) skel). assert (Hwf : Set_Spec.wf m) by (now apply (inst_wf k D)).
    destruct (proj2 (shape_params m p)) as ([rows cols] & Esh).
    { unfold m. now rewrite inst_params. }
    destruct (inst_shape k D st skel p rows cols T Esh) as [-> Hc].
    assert (Sz : size m = size skel) by (unfold m; now apply (inst_size k D)).
    destruct (accumulate_denote m (suff_dim k D) (map (fun yr => suff k (fst yr)) FR) (map snd FR) p (length (st p)) cols)
      as (M & E1 & _ & E2); auto.
    - unfold m. now rewrite inst_params.
    - unfold m. now apply inst_accepts.
    - apply Forall_map, Forall_forall. intros yr Hin. apply (suff_length k D). now apply fr_in.
    - now rewrite !map_length.
    - apply Forall_map, Forall_forall. intros yr Hin. rewrite Sz. now apply fr_in.
    - unfold row_of, cacc. fold m. rewrite E1. destruct (E2 r Hr) as [E3 E4].
      assert (Lf : length (form st (p, r)) = cols).
      { unfold form. cbn [fst snd]. rewrite forms_nth by auto. auto. }
      rewrite Lf. split; [exact E3|]. intros i Hi. rewrite E4 by auto. unfold acc_total.
      rewrite rsum_map2_map. unfold crow. apply sumf_ext. intros yr Hin. destruct (fr_in yr Hin) as (_ & Lr & _).
      rewrite (rsum_map2_index _ _ _ e0 0) by (rewrite denote_length, Lr; auto).
      rewrite denote_length, Sz. apply sumf_ext. intros j Hj. apply in_seq in Hj. f_equal.
      unfold m. rewrite (inst_denote k D) by auto. apply map_nth_lt. rewrite denote_length. lia.
  Qed.

  Lemma e_typed st' j : typed k D st' skel -> (j < size skel)%nat ->
    etyped k D st' (params skel) (nth j (denote skel) e0).
  Proof. intros T' Hj. apply Forall_nth_in; [now apply typed_etyped|]. now rewrite denote_length. Qed.

  Lemma crow_data q : exists data, Forall (fun gx => 0 <= fst gx /\ fits D (cell_at st q) (snd gx)) data /\
    forall i, (i < length (form st q))%nat ->
      w * crow q i = sumf (fun gx => fst gx * nth i (cell_fn (cell_at st q) (snd gx)) 0) data.
  Proof using Hw HFR T.
    exists (flat_map (fun yr => flat_map (fun j => emdata q (fst yr) (suff k (fst yr))
        (einst (forms st) (nth j (denote skel) e0)) (w * nth j (snd yr) 0)) (seq 0 (size skel))) FR).
    split.
    - apply Forall_flat_map, Forall_forall. intros yr Hin. destruct (fr_in yr Hin) as (Hy & Lr & Fr).
      apply Forall_flat_map, Forall_forall. intros j Hj. apply in_seq in Hj.
      apply emdata_fits with (ps := params skel); auto.
      + apply e_typed; auto. lia.
      + apply Rmult_le_pos; [auto|]. apply (proj1 (Forall_forall _ _) Fr), nth_In. lia.
    - intros i Hi. unfold crow. rewrite sumf_flat_map, <- sumf_scal_l. apply sumf_ext. intros yr Hin.
      rewrite sumf_flat_map, <- sumf_scal_l. apply sumf_ext. intros j Hj. apply in_seq in Hj.
      rewrite <- (emdata_acc k D st (params skel)); auto; [|apply e_typed; auto; lia].
      rewrite (em_acc_scal _ _ _ _ (w * _)), (em_acc_scal _ _ _ _ (nth j (snd yr) 0)). ring.
  Qed.

  Lemma ctotal q : In q (allcells st (params skel)) ->
    let stats := total w (length (form st q)) (fst q) (snd q) [cacc] in
    length stats = length (form st q) /\
    (forall i, (i < length (form st q))%nat -> nth i stats 0 = w * crow q i) /\
    exists data, Forall (fun gx => 0 <= fst gx /\ fits D (cell_at st q) (snd gx)) data /\
      stats = wstats (length (form st q)) (cell_fn (cell_at st q)) data.
  Proof using Hnd Hw HFR T.
    intros Hq stats. destruct (crow_spec q Hq) as [L1 E1].
    assert (Hrows : Forall (fun r => length r = length (form st q)) (map (row_of (fst q) (snd q)) [cacc])).
    { constructor; [exact L1|constructor]. }
    assert (Ls : length stats = length (form st q)).
    { unfold stats, total. rewrite vscale_length. now apply colsum_length. }
    assert (Es : forall i, (i < length (form st q))%nat -> nth i stats 0 = w * crow q i).
    { intros i Hi. unfold stats, total. rewrite vscale_nth, colsum_nth by auto. f_equal. cbn [map].
      rewrite sumf_cons, sumf_nil, Rplus_0_r. now apply E1. }
    split; [exact Ls|]. split; [exact Es|]. destruct (crow_data q) as (data & F & G). exists data. split; [exact F|].
    assert (HL : forall gx, In gx data -> length (cell_fn (cell_at st q) (snd gx)) = length (form st q)).
    { intros gx Hin. apply (fits_length (fun _ _ => 0%nat) k D skel st q); auto. now apply (proj1 (Forall_forall _ _) F). }
    apply nth_ext with (d := 0) (d' := 0); [rewrite Ls, wstats_length; auto|].
    intros i Hi. rewrite Ls in Hi. rewrite Es, G, wstats_nth by auto. reflexivity.
  Qed.

  Definition cnew : state := apply_step w lrate group [cacc] st.

  Lemma cnew_length p : length (cnew p) = length (st p).
  Proof. unfold cnew, apply_step. destruct (existsb _ group); [|reflexivity]. rewrite map2_length, seq_length. lia. Qed.

  Lemma cell_gain q : In q (allcells st (params skel)) ->
    let c := cell_at st q in let c' := cell_at cnew q in
    (leaf_cell k D c -> leaf_cell k D c') /\ (forall n, weights_cell n c -> weights_cell n c') /\
    cell_kl c' - cell_kl c <=
    sumf (fun i => w * crow q i * (nth i (form cnew q) 0 - nth i (form st q) 0)) (seq 0 (length (form st q))).
  Proof using Hnd Hw HFR T Hl.
    intros Hq c c'. destruct q as [p i]. assert (Hq' := Hq). apply allcells_in in Hq'. destruct Hq' as [Hp Hi].
    assert (Hst := cnew_length p).
    assert (Ef : form st (p, i) = cell_form c) by (unfold form; cbn [fst snd]; now rewrite forms_nth).
    assert (Ef' : form cnew (p, i) = cell_form c') by (unfold form; cbn [fst snd]; rewrite forms_nth by lia; reflexivity).
    destruct (ctotal (p, i) Hq) as (L1 & E1 & data & F & E2). cbv zeta in L1, E1, E2.
    destruct (existsb (Nat.eqb p) group) eqn:Eg.
    - set (stats := total w (length (form st (p, i))) p i [cacc]).
      assert (Ec : c' = cell_update lrate stats c).
      { unfold c', cell_at, cnew, apply_step. cbn [fst snd]. rewrite Eg.
        rewrite (map2_nth _ _ _ _ 0%nat dc) by (rewrite ?seq_length; auto). rewrite seq_nth by auto.
        unfold stats. rewrite Ef. reflexivity. }
      cbn [fst snd] in E1, L1, E2. fold stats in E1, L1, E2. rewrite Ef in E2. fold c in E2.
      assert (Hin : length (cell_form c') = length (cell_form c) ->
         dot stats (cell_form c) - cell_kl c <= dot stats (cell_form c') - cell_kl c' ->
         cell_kl c' - cell_kl c <= sumf (fun i0 => w * crow (p, i) i0 *
           (nth i0 (form cnew (p, i)) 0 - nth i0 (form st (p, i)) 0)) (seq 0 (length (form st (p, i))))).
      { intros Hlen Hb.
        rewrite (sumf_ext _ (fun a => nth a stats 0 * (nth a (form cnew (p, i)) 0 - nth a (form st (p, i)) 0))).
        2:{ intros a Ha. apply in_seq in Ha. rewrite E1 by lia. reflexivity. }
        rewrite <- dot_diff by (rewrite L1, ?Ef', ?Ef, ?Hlen; reflexivity).
        rewrite Ef, Ef'. lra. }
      destruct (typed_cells k D st skel p i T Hp Hi) as [Lc|(n & Wc)].
      + change (nth i (st p) dc) with c in Lc.
        destruct (leaf_step k D lrate c data Lc Hl F) as [A B]. cbv zeta in A, B. rewrite <- E2, <- Ec in A, B.
        split; [auto|]. split.
        { intros n Wc. destruct (weights_step n D lrate c data Wc Hl F) as [A' _]. cbv zeta in A'. rewrite <- E2, <- Ec in A'. exact A'. }
        apply Hin; auto. now rewrite !(leaf_form_length k D).
      + change (nth i (st p) dc) with c in Wc.
        destruct (weights_step n D lrate c data Wc Hl F) as [A B]. cbv zeta in A, B. rewrite <- E2, <- Ec in A, B.
        split.
        { intros Lc. destruct (leaf_step k D lrate c data Lc Hl F) as [A' _]. cbv zeta in A'. rewrite <- E2, <- Ec in A'. exact A'. }
        split.
        { intros n' Wc'. destruct (weights_step n' D lrate c data Wc' Hl F) as [A' _]. cbv zeta in A'. rewrite <- E2, <- Ec in A'. exact A'. }
        apply Hin; auto. now rewrite !(weights_form_length n).
    - assert (Ec : c' = c) by (unfold c', c, cell_at, cnew, apply_step; cbn [fst snd]; now rewrite Eg).
      rewrite Ec. split; [auto|]. split; [auto|].
      rewrite Ef, Ef', Ec. rewrite sumf_zero; [lra|]. intros; ring.
  Qed.

  Lemma cnew_typed : typed k D cnew skel.
  Proof using Hnd Hw HFR T Hl.
    apply (typed_keep k D st); auto. intros p Hp. split; [apply cnew_length|].
    intros i Hi. destruct (cell_gain (p, i)) as (A & B & _); [now apply allcells_in|]. split; [exact A|exact B].
  Qed.

  Lemma comps_gain :
    total_kl skel cnew - total_kl skel st <=
    sumf (fun yr => sumf (fun j => w * nth j (snd yr) 0 *
      (em_llh (suff k (fst yr)) (einst (forms cnew) (nth j (denote skel) e0)) -
       em_llh (suff k (fst yr)) (einst (forms st) (nth j (denote skel) e0)))) (seq 0 (size skel))) FR.
  Proof using Hnd Hw HFR T Hl.
    set (Q := allcells st (params skel)). assert (HQ : NoDup Q) by (now apply allcells_nodup).
    assert (EQ : allcells cnew (params skel) = Q).
    { unfold Q, allcells. rewrite !flat_map_concat_map. f_equal. apply map_ext. intros p. f_equal. f_equal. apply cnew_length. }
    rewrite !total_kl_cells, EQ. fold Q. rewrite <- sumf_minus.
    apply Rle_trans with (sumf (fun q => sumf (fun i => w * crow q i * (nth i (form cnew q) 0 - nth i (form st q) 0))
      (seq 0 (length (form st q)))) Q).
    { apply sumf_le. intros q Hq. now apply cell_gain. }
    apply Rle_trans with (sumf (fun yr => sumf (fun j => lin_gain Q st cnew (suff k (fst yr)) (nth j (denote skel) e0) (w * nth j (snd yr) 0))
      (seq 0 (size skel))) FR).
    - apply Req_le.
      rewrite (sumf_ext (fun yr => sumf (fun j => lin_gain _ _ _ _ _ _) _) (fun yr => sumf (fun q => sumf (fun j => sumf (fun i =>
        em_acc q (suff k (fst yr)) i (einst (forms st) (nth j (denote skel) e0)) (w * nth j (snd yr) 0) *
        (nth i (form cnew q) 0 - nth i (form st q) 0)) (seq 0 (length (form st q)))) (seq 0 (size skel))) Q)).
      2:{ intros yr _. unfold lin_gain. apply sumf_swap. }
      rewrite sumf_swap. apply sumf_ext. intros q _.
      rewrite (sumf_ext (fun yr => sumf (fun j => sumf (fun i => _) _) _) (fun yr => sumf (fun i => sumf (fun j =>
        em_acc q (suff k (fst yr)) i (einst (forms st) (nth j (denote skel) e0)) (w * nth j (snd yr) 0) *
        (nth i (form cnew q) 0 - nth i (form st q) 0)) (seq 0 (size skel))) (seq 0 (length (form st q))))).
      2:{ intros yr _. apply sumf_swap. }
      rewrite sumf_swap. apply sumf_ext. intros i _. unfold crow. rewrite <- sumf_scal_l, <- sumf_scal_r.
      apply sumf_ext. intros yr _. rewrite <- sumf_scal_l, <- sumf_scal_r. apply sumf_ext. intros j _.
      rewrite (em_acc_scal _ _ _ _ (w * _)), (em_acc_scal _ _ _ _ (nth j (snd yr) 0)). ring.
    - apply sumf_le. intros yr Hin. destruct (fr_in yr Hin) as (Hy & Lr & Fr). apply sumf_le. intros j Hj. apply in_seq in Hj.
      assert (T' := cnew_typed).
      rewrite <- (gain_acc k D _ st cnew (params skel) Q).
      + apply Rmult_le_compat_l.
        * apply Rmult_le_pos; [auto|]. apply (proj1 (Forall_forall _ _) Fr), nth_In. lia.
        * apply (gain_le k D _ st cnew (params skel)); apply e_typed; auto; lia.
      + exact HQ.
      + intros p i Hp Hi. now apply allcells_in.
      + apply e_typed; auto; lia.
      + apply e_typed; auto; lia.
      + now apply suff_length.
  Qed.
End Comps.

(** ** The frames *)
Section Frames.
  Variables (k : kind) (D : nat) (skel : mset).

  Definition frame_resps (s : mixst) (f : lframe) : list R :=
    match snd f with
    | None => map (fun j => exp (mx_joint skel s (fst f) j) /
                  sumf (fun i => exp (mx_joint skel s (fst f) i)) (seq 0 (size skel))) (seq 0 (size skel))
    | Some j => unit_row (size skel) j
    end.

  (** The part of the bound that is left out of the value of a labelled frame *)
  Definition left_out (s : mixst) (f : lframe) : R :=
    match snd f with None => 0 | Some j => elog_weight (mx_weights s) j end.

  Lemma joint_sum_pos s x : (0 < size skel)%nat -> 0 < sumf (fun i => exp (mx_joint skel s x i)) (seq 0 (size skel)).
  Proof.
    intros H. apply sumf_pos with (a := 0%nat); [intros; left; apply exp_pos|apply in_seq; lia|apply exp_pos].
  Qed.

  Lemma frame_model s f : mix_ok k D skel s -> lframe_ok k D skel f ->
    let m := inst (forms (mx_comps s)) skel in
    mixture_ellh (ellh m (fst f)) (mx_log_weights (size m) (mx_weights s)) (snd f) =
    Ok (frame_bound skel s f - left_out s f, frame_resps s f).
  Proof.
    intros (T & Hn & W) (_ & Hj) m. assert (Sz : size m = size skel) by (unfold m; now apply (inst_size k D)).
    rewrite Sz. destruct (logw_ok _ _ W) as [Lw Ew].
    assert (Hwf : Set_Spec.wf m) by (unfold m; now apply (inst_wf k D)).
    assert (Ll : length (ellh m (fst f)) = size skel) by (now rewrite ellh_length).
    assert (El : forall j, (j < size skel)%nat -> nth j (ellh m (fst f)) 0 = em_llh (fst f) (nth j (mx_ems skel s) e0)).
    { intros j Hj'. rewrite ellh_denote by auto. rewrite (map_nth_lt _ _ _ e0) by (rewrite denote_length; lia). reflexivity. }
    unfold frame_bound, left_out, frame_resps. destruct f as [x [j|]]; cbn [fst snd] in *.
    - destruct (C16_labels (ellh m x) (mx_log_weights (size skel) (mx_weights s)) j) as [E _].
      rewrite E by (now rewrite Ll). rewrite Ll, El by auto. unfold mx_joint. do 2 f_equal. ring.
    - destruct (C16_value (ellh m x) (mx_log_weights (size skel) (mx_weights s))) as (resps & E & Lr & _ & Er).
      + congruence.
      + intros Z. rewrite Z in Ll. simpl in Ll. lia.
      + rewrite Ll in *.
        assert (Es : forall j, In j (seq 0 (size skel)) ->
          exp (nth j (ellh m x) 0 + nth j (mx_log_weights (size skel) (mx_weights s)) 0) = exp (mx_joint skel s x j)).
        { intros j Hin. apply in_seq in Hin. unfold mx_joint. rewrite El, Ew by lia. f_equal. ring. }
        rewrite (sumf_ext _ _ _ Es) in E. rewrite E. f_equal. f_equal; [ring|].
        apply vec_ext; [now rewrite map_length, seq_length|]. intros j Hlt. rewrite Lr in Hlt.
        rewrite Er by auto. rewrite (sumf_ext _ _ _ Es), Es by (apply in_seq; lia).
        rewrite (map_nth_lt _ _ _ 0%nat), seq_nth by (rewrite ?seq_length; auto). reflexivity.
  Qed.

  Lemma resps_ok s f : mix_ok k D skel s -> lframe_ok k D skel f ->
    length (frame_resps s f) = size skel /\ Forall (fun v => 0 <= v) (frame_resps s f).
  Proof.
    intros (_ & Hn & _) _. unfold frame_resps. destruct (snd f) as [j|].
    - split; [apply unit_row_length|]. apply Forall_forall. intros x Hx. unfold unit_row in Hx.
      apply in_map_iff in Hx. destruct Hx as (i & <- & _). destruct (Nat.eqb i j); lra.
    - split; [now rewrite map_length, seq_length|]. apply Forall_map, Forall_forall. intros j _.
      apply Rmult_le_pos; [left; apply exp_pos|]. left. apply Rinv_0_lt_compat. now apply joint_sum_pos.
  Qed.

  Lemma frame_gain s s' f : mix_ok k D skel s -> lframe_ok k D skel f ->
    sumf (fun j => nth j (frame_resps s f) 0 * (mx_joint skel s' (fst f) j - mx_joint skel s (fst f) j)) (seq 0 (size skel)) <=
    frame_bound skel s' f - frame_bound skel s f.
  Proof.
    intros (_ & Hn & _) (_ & Hj). unfold frame_bound, frame_resps. destruct f as [x [j|]]; cbn [fst snd] in *.
    - rewrite (sumf_seq_single _ _ j); auto.
      + rewrite unit_row_nth, Nat.eqb_refl by auto. lra.
      + intros i Hi Hne. rewrite unit_row_nth by (try apply in_seq in Hi; lia).
        destruct (Nat.eqb_spec i j); [contradiction|ring].
    - assert (Z := joint_sum_pos s x Hn). assert (Z' := joint_sum_pos s' x Hn).
      set (S0 := sumf (fun i => exp (mx_joint skel s x i)) (seq 0 (size skel))) in *.
      set (S1 := sumf (fun i => exp (mx_joint skel s' x i)) (seq 0 (size skel))) in *.
      rewrite (sumf_ext _ (fun j => exp (mx_joint skel s x j) / S0 * (mx_joint skel s' x j - mx_joint skel s x j))).
      2:{ intros j Hin. apply in_seq in Hin. rewrite (map_nth_lt _ _ _ 0%nat), seq_nth by (rewrite ?seq_length; lia). reflexivity. }
      eapply Rle_trans; [apply jensen|].
      + intros j _. apply Rmult_le_pos; [left; apply exp_pos|]. left. now apply Rinv_0_lt_compat.
      + unfold Rdiv. rewrite sumf_scal_r. fold S0. field. lra.
      + rewrite <- ln_div by auto. apply Req_le. f_equal.
        rewrite (sumf_ext _ (fun j => exp (mx_joint skel s' x j) * / S0)).
        2:{ intros j _. unfold Rdiv. rewrite Rmult_comm, <- Rmult_assoc, <- exp_plus. do 2 f_equal. ring. }
        rewrite sumf_scal_r. reflexivity.
  Qed.

  Lemma frames_ok s frames : mix_ok k D skel s -> Forall (lframe_ok k D skel) frames ->
    mx_frames skel frames s = Ok (map (fun f => (frame_bound skel s f - left_out s f, frame_resps s f)) frames).
  Proof.
    intros G F. unfold mx_frames. cbv zeta. induction F as [|f fs Hf F IH]; [reflexivity|]. cbn [mapM map].
    rewrite (frame_model s f G Hf). cbn [bindr]. now rewrite IH.
  Qed.

  Lemma frames_data s frames : mix_ok k D skel s -> Forall (lframe_ok k D skel) frames ->
    exists FR, map (fun yr => suff k (fst yr)) FR = map fst frames /\ map snd FR = map (frame_resps s) frames /\
      Forall (fun yr => frame_ok k D (fst yr) /\ length (snd yr) = size skel /\ Forall (fun v => 0 <= v) (snd yr)) FR /\
      forall g : list R -> list R -> R,
        sumf (fun yr => g (suff k (fst yr)) (snd yr)) FR = sumf (fun f => g (fst f) (frame_resps s f)) frames.
  Proof.
    intros G F. induction F as [|f fs Hf F (FR & E1 & E2 & E3 & E4)].
    - exists []. repeat split; try reflexivity. constructor.
    - assert (Hf' := Hf). destruct Hf' as ((y & Ey & Hy) & _). exists ((y, frame_resps s f) :: FR).
      cbn [map fst snd]. rewrite E1, E2, Ey. split; [reflexivity|]. split; [reflexivity|]. split.
      + constructor; [|exact E3]. cbn [fst snd]. split; [exact Hy|]. now apply resps_ok.
      + intros g. rewrite !sumf_cons, E4. cbn [fst snd]. now rewrite Ey.
  Qed.
End Frames.

(** ** One step *)
Section Step.
  Variables (sort : list R -> list nat) (k : kind) (D : nat) (skel : mset) (w lrate : R) (uw : bool) (group : list nat).
  Variable frames : list lframe.
  Hypothesis Hsort : forall counts, sorts_desc counts (sort counts).
  Hypothesis Hnd : NoDup (params skel).
  Hypothesis Hw : 0 <= w.
  Hypothesis HF : Forall (lframe_ok k D skel) frames.

  Lemma mx_step_bound s : mix_ok k D skel s -> rate_ok (mx_weights s) lrate uw ->
    exists s', mx_step sort w lrate uw group skel frames s = Ok s' /\ mix_ok k D skel s' /\
      mx_bound w skel frames s <= mx_bound w skel frames s'.
  Proof.
    intros G Hr. assert (G' := G). destruct G' as (T & Hn & W).
    unfold mx_step. rewrite (frames_ok k D) by auto. cbn [bindr]. rewrite !map_map. cbn [snd].
    destruct (frames_data k D skel s frames G HF) as (FR & E1 & E2 & E3 & E4).
    set (m := inst (forms (mx_comps s)) skel). assert (Sz : size m = size skel) by (unfold m; now apply (inst_size k D)).
    change (map (fun x : lframe => frame_resps skel s x) frames) with (map (frame_resps skel s) frames).
    rewrite <- E1, <- E2, Sz. fold (cacc k skel FR (mx_comps s)).
    fold (cnew k skel w lrate group FR (mx_comps s)). set (st' := cnew k skel w lrate group FR (mx_comps s)).
    set (c' := if uw then _ else _).
    set (s' := {| mx_weights := c'; mx_comps := st' |}). exists s'. split; [reflexivity|].
    assert (Hl : 0 <= lrate <= 1) by apply Hr.
    assert (T' : typed k D st' skel) by (unfold st'; now apply cnew_typed).
    assert (K := comps_gain k D skel w lrate group Hnd Hw Hl FR E3 (mx_comps s) T). fold st' in K.
    assert (Hrows : Forall (fun r => length r = size skel /\ Forall (fun v => 0 <= v) r) (map snd FR)).
    { apply Forall_map. eapply Forall_impl; [|exact E3]. intros yr (_ & A & B). split; [exact A|exact B]. }
    assert (KW : mxw_ok (size skel) c' /\ weights_kl c' - weights_kl (mx_weights s) <=
      sumf (fun j => mx_counts w (map snd FR) j * (elog_weight c' j - elog_weight (mx_weights s) j)) (seq 0 (size skel))).
    { unfold c'. destruct uw; [now apply weights_gain|]. split; [exact W|]. rewrite sumf_zero; [lra|]. intros; ring. }
    destruct KW as [W' KW].
    assert (G' : mix_ok k D skel s') by (split; [exact T'|]; split; [exact Hn|exact W']). split; [exact G'|].
    unfold mx_bound. cbn [mx_weights mx_comps s'].
    assert (FG : w * sumf (fun f => sumf (fun j => nth j (frame_resps skel s f) 0 * (mx_joint skel s' (fst f) j - mx_joint skel s (fst f) j)) (seq 0 (size skel))) frames
      <= w * (sumf (frame_bound skel s') frames - sumf (frame_bound skel s) frames)).
    { apply Rmult_le_compat_l; [auto|]. rewrite <- sumf_minus. apply sumf_le. intros f Hf.
      apply (frame_gain k D); auto. now apply (proj1 (Forall_forall _ _) HF). }
    assert (E : w * sumf (fun f => sumf (fun j => nth j (frame_resps skel s f) 0 * (mx_joint skel s' (fst f) j - mx_joint skel s (fst f) j)) (seq 0 (size skel))) frames =
      sumf (fun j => mx_counts w (map snd FR) j * (elog_weight c' j - elog_weight (mx_weights s) j)) (seq 0 (size skel)) +
      sumf (fun yr => sumf (fun j => w * nth j (snd yr) 0 *
      (em_llh (suff k (fst yr)) (einst (forms st') (nth j (denote skel) e0)) -
       em_llh (suff k (fst yr)) (einst (forms (mx_comps s)) (nth j (denote skel) e0)))) (seq 0 (size skel))) FR).
    { rewrite <- (E4 (fun x r => sumf (fun j => nth j r 0 * (mx_joint skel s' x j - mx_joint skel s x j)) (seq 0 (size skel)))).
      rewrite (sumf_ext (fun j => mx_counts _ _ j * _) (fun j => sumf (fun yr => w * nth j (snd yr) 0 * (elog_weight c' j - elog_weight (mx_weights s) j)) FR)).
      2:{ intros j _. unfold mx_counts. rewrite sumf_map. rewrite sumf_scal_r, sumf_scal_l. reflexivity. }
      symmetry. rewrite sumf_swap. rewrite <- sumf_plus. symmetry. rewrite <- sumf_scal_l. apply sumf_ext. intros yr _.
      rewrite <- sumf_plus, <- sumf_scal_l. apply sumf_ext. intros j Hj. apply in_seq in Hj.
      unfold mx_joint, mx_ems. cbn [mx_weights mx_comps s'].
      rewrite (inst_denote k D st'), (inst_denote k D (mx_comps s)) by auto.
      rewrite !(map_nth_lt _ _ _ e0) by (rewrite denote_length; lia). ring. }
    lra.
  Qed.
End Step.

Lemma weights_kind sort w lrate uw group skel frames s s' : mx_step sort w lrate uw group skel frames s = Ok s' ->
  match mx_weights s, mx_weights s' with
  | WDir p _, WDir p' _ => p = p'
  | WStick p _ _, WStick p' _ _ => p = p'
  | WHyper g _, WHyper g' _ => g = g'
  | _, _ => False
  end.
Proof.
  unfold mx_step. intros E. destruct (mx_frames skel frames s); [|discriminate]. cbn [bindr] in E. injection E as <-.
  cbn [mx_weights]. destruct uw; [|destruct (mx_weights s); auto].
  destruct (mx_weights s) as [p q|p o q|g h]; cbn [mx_weights_update]; auto.
  destruct (sb_update _ _ _ _ _). reflexivity.
Qed.

(** Stick-breaking properties: C43, C44, C91, C92, C93. *)
From Coq Require Import Reals List Arith Bool Lia Lra Permutation.
From Verif Require Import Prelude Vec Gibbs Lgamma Dist_Model Dist_Spec Dist_Proofs KL_Proofs Llh_Proofs SB_Model SB_Spec SB_Proofs.
Import ListNotations.
Local Open Scope R_scope.

Lemma firstn_seq n a i : firstn i (seq a n) = seq a (Nat.min i n).
Proof. revert a i; induction n; intros a [|i]; simpl; auto. now rewrite IHn. Qed.
Lemma firstn_S_nth {A} (l : list A) i d : (i < length l)%nat -> firstn (S i) l = firstn i l ++ [nth i l d].
Proof. revert i; induction l; intros [|i] H; simpl in *; try lia; auto. now rewrite <- IHl by lia. Qed.

(** ** C43 *)
Theorem C43_reverse_order : forall (A : Type) (d : A) n ord l, is_order n ord -> length l = n ->
  reorder d (reverse_ordering ord) (reorder d ord l) = l /\
  reorder d ord (reorder d (reverse_ordering ord) l) = l /\
  is_order n (reverse_ordering ord).
Proof.
  intros A d n ord l Ho Hl. split; [|split].
  - now apply (reorder_inverse n).
  - now apply (reorder_inverse' n).
  - now apply rev_ord_perm.
Qed.

(** The statistics of the stick at position i are the count of its component
    and, in natural form, that count plus the counts of all later ones. *)
Theorem C43_tail_counts : forall n ord counts, is_order n ord -> length counts = n ->
  length (transform_stats ord counts) = n /\
  forall i, (i < n)%nat -> let k := nth i ord 0%nat in
    nth k (transform_stats ord counts) (0, 0) =
    (nth k counts 0, nth k counts 0 + tail_count ord counts i).
Proof.
  intros n ord counts Ho Hl. split; [now apply transform_length|]. intros i Hi k. unfold k.
  rewrite (transform_nth n) by auto. f_equal. unfold tail_count.
  rewrite (skipn_cons_nth ord i 0%nat) by (rewrite (ord_length n); auto). now rewrite sumf_cons.
Qed.

(** A training step moves the concentrations of every stick towards
    (prior + count, prior + counts of the later components). *)
Theorem C43_update : forall sort lrate prior post counts n,
  length prior = n -> length post = n -> length counts = n -> sorts_desc counts (sort counts) ->
  let ord := fst (sb_update sort lrate prior post counts) in
  let post' := snd (sb_update sort lrate prior post counts) in
  ord = sort counts /\ length post' = n /\
  (forall i, (i < n)%nat -> let k := nth i ord 0%nat in
    let a0 := fst (nth k prior (0, 0)) in let b0 := snd (nth k prior (0, 0)) in
    let a := fst (nth k post (0, 0)) in let b := snd (nth k post (0, 0)) in
    nth k post' (0, 0) = ((1 - lrate) * a + lrate * (a0 + nth k counts 0),
                          (1 - lrate) * b + lrate * (b0 + tail_count ord counts i))) /\
  (* the components counted in the tail are not more frequent *)
  (forall i j, (i < j < n)%nat -> nth (nth j ord 0%nat) counts 0 <= nth (nth i ord 0%nat) counts 0).
Proof.
  intros sort lrate prior post counts n H1 H2 H3 (Ho & Hs) ord post'. rewrite H3 in Ho, Hs.
  unfold ord, post', sb_update in *. cbn [fst snd].
  destruct (C43_tail_counts n _ counts Ho H3) as (T1 & T2).
  split; [reflexivity|]. split.
  { rewrite map2_length, combine_length. lia. }
  split.
  - intros i Hi. set (k := nth i (sort counts) 0%nat).
    assert (Hk : (k < n)%nat) by (now apply ord_nth_lt).
    rewrite (map2_nth _ _ _ k ((0, 0), (0, 0)) (0, 0) (0, 0)) by (rewrite ?combine_length; lia).
    rewrite combine_nth by lia. cbn [fst snd]. rewrite stick_update_value. unfold k. rewrite T2 by auto.
    cbn [fst snd]. f_equal. ring.
  - intros i j Hij. apply Hs; lia.
Qed.

Lemma positive_nth c k : positive_sticks c -> (k < length c)%nat ->
  0 < fst (nth k c (0, 0)) /\ 0 < snd (nth k c (0, 0)).
Proof. intros H Hk. unfold positive_sticks in H. rewrite Forall_forall in H. apply H. now apply nth_In. Qed.

(** Sticks stay proper Beta distributions along any training history. *)
Theorem C43_positive_forever : forall sort lrate prior post counts,
  length prior = length counts -> length post = length counts -> sorts_desc counts (sort counts) ->
  positive_sticks prior -> positive_sticks post -> Forall (fun x => 0 <= x) counts -> 0 <= lrate <= 1 ->
  positive_sticks (snd (sb_update sort lrate prior post counts)).
Proof.
  intros sort lrate prior post counts H1 H2 Hs Hp Hq Hc Hl.
  destruct (C43_update sort lrate prior post counts _ H1 H2 eq_refl Hs) as (_ & U1 & U2 & _).
  set (n := length counts) in *. set (r := snd _) in *.
  apply Forall_forall. intros x Hx. destruct (In_nth _ _ (0, 0) Hx) as (k & Hk & <-). rewrite U1 in Hk.
  destruct Hs as (Ho & _). destruct (ord_onto n _ Ho k Hk) as (i & Hi & <-).
  rewrite U2 by auto. cbn [fst snd]. unfold sb_update. cbn [fst].
  assert (N : forall j, 0 <= nth j counts 0).
  { intros j. destruct (Nat.lt_ge_cases j (length counts)) as [A|A].
    - rewrite Forall_forall in Hc. apply Hc. now apply nth_In.
    - rewrite nth_overflow by lia. lra. }
  assert (T : 0 <= tail_count (sort counts) counts i) by (apply sumf_nonneg; intros; apply N).
  set (k := nth i (sort counts) 0%nat) in *.
  destruct (positive_nth prior k Hp ltac:(lia)) as (P1 & P2).
  destruct (positive_nth post k Hq ltac:(lia)) as (Q1 & Q2). specialize (N k).
  split; destruct (Req_dec lrate 0) as [->|Hl0]; try lra; [|].
  - assert (0 < lrate * (fst (nth k prior (0, 0)) + nth k counts 0)) by (apply Rmult_lt_0_compat; lra).
    assert (0 <= (1 - lrate) * fst (nth k post (0, 0))) by (apply Rmult_le_pos; lra). lra.
  - assert (0 < lrate * (snd (nth k prior (0, 0)) + tail_count (sort counts) counts i)) by (apply Rmult_lt_0_compat; lra).
    assert (0 <= (1 - lrate) * snd (nth k post (0, 0))) by (apply Rmult_le_pos; lra). lra.
Qed.

(** Sets: every member has its own tail counts, in the order of the root. *)
Theorem C43_set_tail_counts : forall n ord stats m i, is_order n ord ->
  Forall (fun row => length row = n) stats -> (m < length stats)%nat -> (i < n)%nat ->
  let k := nth i ord 0%nat in let counts := nth m stats [] in
  nth k (member n m (set_transform_stats ord stats)) (0, 0) =
  (nth k counts 0, nth k counts 0 + tail_count ord counts i).
Proof.
  intros n ord stats m i Ho Hs Hm Hi k counts.
  assert (Hc : length counts = n).
  { unfold counts. rewrite Forall_forall in Hs. apply Hs. now apply nth_In. }
  replace (member n m (set_transform_stats ord stats)) with (transform_stats ord counts);
    [now apply (C43_tail_counts n)|].
  unfold counts, member, set_transform_stats. clear Hc counts k Hi. revert m Hm. induction Hs as [|row rows Hr Hrs IH]; intros m Hm; [simpl in Hm; lia|].
  assert (L : length (transform_stats ord row) = n) by (now apply transform_length).
  cbn [map concat]. destruct m as [|m].
  - cbn [nth Nat.mul skipn]. rewrite firstn_app, L, Nat.sub_diag. simpl. rewrite app_nil_r.
    symmetry. apply firstn_all2. lia.
  - cbn [nth]. rewrite (IH m) by (simpl in Hm; lia). f_equal. rewrite skipn_app, L.
    rewrite (skipn_all2 (transform_stats ord row)) by (rewrite L; simpl; lia).
    cbn [app]. f_equal. simpl. lia.
Qed.

(** The weights of a member of a set only depend on its own sticks. *)
Theorem C44_set_members : forall eps ord K ms i, Forall (fun m => length m = K) ms -> (i < length ms)%nat ->
  nth i (set_mean eps ord (length ms) K (concat ms)) [] = sb_mean eps ord (nth i ms []) /\
  nth i (set_log_prob ord (length ms) K (concat ms)) [] =
    reorder 0 (reverse_ordering ord) (fst (log_prob ord (nth i ms []))).
Proof.
  intros eps ord K ms i F Hi.
  assert (M : member K i (concat ms) = nth i ms []).
  { clear - F Hi. unfold member. revert i Hi. induction F as [|m ms Hm F IH]; intros i Hi; [simpl in Hi; lia|].
    cbn [concat]. destruct i as [|i]; cbn [nth Nat.mul].
    - cbn [skipn]. rewrite firstn_app, Hm, Nat.sub_diag, firstn_O, app_nil_r. rewrite <- Hm. apply firstn_all.
    - rewrite <- (IH i) by (simpl in Hi; lia). f_equal. rewrite skipn_app, Hm.
      rewrite skipn_all2 by lia. cbn [app]. f_equal. lia. }
  unfold set_mean, set_log_prob. split;
    rewrite (map_nth_lt _ _ _ 0%nat) by (rewrite seq_length; lia); rewrite seq_nth by lia; cbn [plus]; now rewrite M.
Qed.

Example C43_ex :
  (* counts 1, 5, 3: order 1, 2, 0 *)
  transform_stats [1; 2; 0]%nat [1; 5; 3] = [(1, 1); (5, 9); (3, 4)] /\
  reverse_ordering [1; 2; 0]%nat = [2; 0; 1]%nat /\
  sb_update (fun _ => [1; 2; 0]%nat) 1 [(1, 2); (1, 2); (1, 2)] [(7, 7); (7, 7); (7, 7)] [1; 5; 3] =
  ([1; 2; 0]%nat, [(2, 2); (6, 6); (4, 3)]).
Proof.
  split; [|split; [reflexivity|]].
  - unfold transform_stats, reverse_ordering, reorder, cumsum. simpl.
    repeat (apply f_equal2; [apply f_equal2; lra|]). reflexivity.
  - unfold sb_update, transform_stats, reverse_ordering, reorder, cumsum. simpl.
    rewrite !stick_update_value. simpl. f_equal.
    repeat (apply f_equal2; [apply f_equal2; lra|]). reflexivity.
Qed.

(** ** C44 *)
(** eps: the small constant added to the normaliser. *)
Theorem C44_weights_subprobability : forall n ord c eps,
  is_order n ord -> length c = n -> 0 <= eps ->
  Forall (fun ab => 0 <= fst ab /\ 0 <= snd ab /\ 0 < fst ab + snd ab + eps) c ->
  length (sb_mean eps ord c) = n /\
  Forall (fun w => 0 <= w) (sb_mean eps ord c) /\
  rsum (sb_mean eps ord c) <= 1 - rprod (map (fun ab => snd ab / (fst ab + snd ab + eps)) c) /\
  rsum (sb_mean eps ord c) <= 1.
Proof.
  intros n ord c eps Ho Hc He Hp.
  assert (P : forall k, (k < n)%nat -> 0 <= sa c k /\ 0 <= sb c k /\ 0 < sa c k + sb c k + eps).
  { intros k Hk. rewrite Forall_forall in Hp. apply Hp, nth_In. lia. }
  split; [now apply sb_mean_length|]. split; [now apply (sb_mean_nonneg n)|].
  assert (T := sb_mean_total n ord c eps Ho Hc P He).
  assert (E : map (sr c eps) (seq 0 n) = map (fun ab => snd ab / (fst ab + snd ab + eps)) c).
  { rewrite <- (seq_nth_map (0, 0) c) at 2. rewrite map_map, Hc. reflexivity. }
  rewrite E in T. split; [exact T|].
  assert (0 <= rprod (map (fun ab => snd ab / (fst ab + snd ab + eps)) c)).
  { apply rprod_nonneg. intros x Hx. apply in_map_iff in Hx. destruct Hx as (ab & <- & Hab).
    rewrite Forall_forall in Hp. destruct (Hp ab Hab) as (A & B & C).
    apply Rmult_le_pos; auto. now apply Rlt_le, Rinv_0_lt_compat. }
  lra.
Qed.

(** Without the constant: the broken stick, and the exact total. *)
Theorem C44_weights_exact : forall n ord c, is_order n ord -> length c = n ->
  Forall (fun ab => 0 <= fst ab /\ 0 <= snd ab /\ 0 < fst ab + snd ab) c ->
  let v k := fst (nth k c (0, 0)) / (fst (nth k c (0, 0)) + snd (nth k c (0, 0))) in
  (forall i, (i < n)%nat -> nth (nth i ord 0%nat) (sb_mean 0 ord c) 0 = broken_stick v ord i) /\
  rsum (sb_mean 0 ord c) = 1 - rprod (map (fun k => 1 - v k) (seq 0 n)).
Proof.
  intros n ord c Ho Hc Hp v.
  assert (P : forall k, (k < n)%nat -> 0 <= sa c k /\ 0 <= sb c k /\ 0 < sa c k + sb c k + 0).
  { intros k Hk. rewrite Forall_forall in Hp. rewrite Rplus_0_r. apply Hp, nth_In. lia. }
  assert (EV : forall k, sv c 0 k = v k) by (intros k; unfold sv, v, sa, sb; now rewrite Rplus_0_r).
  split.
  - intros i Hi. rewrite (sb_mean_nth n) by auto. unfold broken_stick. rewrite EV. f_equal. f_equal.
    apply map_ext_in. intros k Hk. apply In_firstn in Hk. apply (ord_lt n ord Ho) in Hk.
    unfold sr, v. rewrite Rplus_0_r. destruct (P k Hk) as (_ & _ & A). unfold sa, sb in *. field. lra.
  - rewrite (sb_mean_total_exact n ord c 0) by (auto; lra). f_equal. f_equal. apply map_ext. intros k. now rewrite EV.
Qed.

(** With the constant, each weight is within the constant of the exact stick
    fractions: it is never larger than the exact weight. *)
Theorem C44_epsilon_only_shrinks : forall n ord c eps k, is_order n ord -> length c = n -> 0 <= eps ->
  Forall (fun ab => 0 <= fst ab /\ 0 <= snd ab /\ 0 < fst ab + snd ab) c -> (k < n)%nat ->
  nth k (sb_mean eps ord c) 0 <= nth k (sb_mean 0 ord c) 0.
Proof.
  intros n ord c eps k Ho Hc He Hp Hk. destruct (ord_onto n ord Ho k Hk) as (i & Hi & <-).
  rewrite !(sb_mean_nth n) by auto.
  assert (P : forall k, (k < n)%nat -> 0 <= sa c k /\ 0 <= sb c k /\ 0 < sa c k + sb c k).
  { intros j Hj. rewrite Forall_forall in Hp. apply Hp, nth_In. lia. }
  assert (Q : forall x k, (k < n)%nat -> 0 <= x -> 0 <= x / (sa c k + sb c k + eps) <= x / (sa c k + sb c k + 0)).
  { intros x j Hj Hx. destruct (P j Hj) as (_ & _ & A). split.
    - apply Rmult_le_pos; auto. apply Rlt_le, Rinv_0_lt_compat. lra.
    - apply Rmult_le_compat_l; auto. apply Rinv_le_contravar; lra. }
  apply Rmult_le_compat.
  - apply Q; [now apply ord_nth_lt|]. apply P. now apply ord_nth_lt.
  - apply rprod_nonneg. intros y Hy. apply in_map_iff in Hy. destruct Hy as (z & <- & Hz).
    apply In_firstn in Hz. apply (ord_lt n ord Ho) in Hz. apply Q; auto. now apply P.
  - apply Q; [now apply ord_nth_lt|]. apply P. now apply ord_nth_lt.
  - apply rprod_le. intros z Hz. apply In_firstn in Hz. apply (ord_lt n ord Ho) in Hz. apply Q; auto. now apply P.
Qed.

Example C44_ex : sb_mean 0 [1; 0]%nat [(1, 1); (1, 3)] = [3/8; 1/4].
Proof.
  unfold sb_mean, reverse_ordering, reorder, cumprod. simpl.
  repeat (apply f_equal2; [lra|]). reflexivity.
Qed.

(** ** C91: expected log-weights *)
Theorem C91_expected_log_weights : forall n ord c, is_order n ord -> length c = n -> positive_sticks c ->
  let a k := fst (nth k c (0, 0)) in let b k := snd (nth k c (0, 0)) in
  (* E[ln pi_k] = E[ln v_k] + sum over the earlier components of E[ln (1 - v_j)] *)
  (forall i, (i < n)%nat -> let k := nth i ord 0%nat in
     nth k (sb_log_weights ord c) 0 =
     (digamma (a k) - digamma (a k + b k)) + sumf (fun j => digamma (b j) - digamma (a j + b j)) (firstn i ord)) /\
  (* one-hot data *)
  (forall k, (k < n)%nat -> sb_ellh ord c (unit_row n k) = nth k (sb_log_weights ord c) 0) /\
  (* never above the logarithm of the expected weight *)
  (forall k, (k < n)%nat -> exp (nth k (sb_log_weights ord c) 0) <= nth k (sb_mean 0 ord c) 0) /\
  (* sub-normalised *)
  rsum (map exp (sb_log_weights ord c)) <= 1.
Proof.
  intros n ord c Ho Hc Hp a b.
  assert (P : forall k, (k < n)%nat -> 0 < sa c k /\ 0 < sb c k) by (intros; apply positive_nth; auto; lia).
  assert (J := sb_log_weights_jensen n ord c Ho Hc P).
  assert (L := sb_log_weights_length n ord c Ho).
  split; [|split; [|split]].
  - intros i Hi k. now apply (sb_log_weights_nth n).
  - intros k Hk. unfold sb_ellh. now apply dot_unit_row.
  - exact J.
  - destruct (C44_weights_subprobability n ord c 0 Ho Hc ltac:(lra)) as (M1 & _ & _ & M2).
    { apply Forall_forall. intros ab Hab. unfold positive_sticks in Hp; rewrite Forall_forall in Hp. specialize (Hp ab Hab). simpl in Hp. lra. }
    eapply Rle_trans; [|exact M2]. rewrite !rsum_nth, map_length, L, M1. apply sumf_le.
    intros k Hk. apply in_seq in Hk. rewrite (map_nth_lt exp _ _ 0 0) by lia. apply J. lia.
Qed.

Example C91_ex : (* Beta(1, 1) sticks: E[ln v] = E[ln (1 - v)] = -1 *)
  sb_log_weights [1; 0]%nat [(1, 1); (1, 1)] = [-2; -1].
Proof.
  assert (E : digamma (1 + 1) = digamma 1 + 1) by (rewrite digamma_rec by lra; lra).
  unfold sb_log_weights, log_prob, log_v, reverse_ordering, reorder, cumsum. simpl. rewrite E.
  repeat (apply f_equal2; [lra|]). reflexivity.
Qed.

(** ** C92: concentration of the stick-breaking process *)
Theorem C92_concentration_update : forall n ord c gprior gpost prior,
  is_order n ord -> length c = n -> positive_sticks c -> gamma_ok 1 gprior -> gamma_ok 1 gpost ->
  exists a0 b0 a b,
  gprior = {| g_shape := [a0]; g_rate := [b0] |} /\
  let out := on_stickbreaking_update ord c gprior gpost prior in
  fst out = {| g_shape := [a]; g_rate := [b] |} /\
  (* conjugate posterior of the concentration given Beta(1, .) sticks *)
  a = a0 + INR n /\
  b = b0 - sumf (fun ab => digamma (snd ab) - digamma (fst ab + snd ab)) c /\
  b0 <= b /\ gamma_ok 1 (fst out) /\
  (* every stick's prior gets the expected concentration *)
  snd out = map (fun ab => (fst ab, a / b)) prior.
Proof.
  intros n ord c gprior gpost prior Ho Hc Hp (G1 & G2 & G3 & G4) (Q1 & Q2 & Q3 & Q4).
  destruct gprior as [sh ra], gpost as [sh' ra']. cbn [g_shape g_rate] in G1, G2, G3, G4, Q1, Q2.
  destruct sh as [|a0 [|x sh]]; simpl in G1; try discriminate.
  destruct ra as [|b0 [|x ra]]; simpl in G2; try discriminate.
  destruct sh' as [|a1 [|x sh']]; simpl in Q1; try discriminate.
  destruct ra' as [|b1 [|x ra']]; simpl in Q2; try discriminate.
  assert (S1 : rsum (map (el1v c) ord) = sumf (fun ab => digamma (snd ab) - digamma (fst ab + snd ab)) c).
  { fold (sumf (el1v c) ord). rewrite (sumf_perm _ _ _ Ho). unfold sumf.
    rewrite <- (seq_nth_map (0, 0) c) at 2. rewrite map_map, Hc. reflexivity. }
  assert (S2 : rsum (map (fun _ => 1) (map (el1v c) ord)) = INR n).
  { rewrite map_map. fold (sumf (fun _ : nat => 1) ord). rewrite sumf_const, (ord_length n ord Ho). ring. }
  exists a0, b0, (a0 + INR n), (b0 - sumf (fun ab => digamma (snd ab) - digamma (fst ab + snd ab)) c).
  split; [reflexivity|]. intros out.
  assert (E : fst out = {| g_shape := [a0 + INR n];
     g_rate := [b0 - sumf (fun ab => digamma (snd ab) - digamma (fst ab + snd ab)) c] |}).
  { unfold out, on_stickbreaking_update, concentration_stats, log_prob. rewrite log_v_value. cbn [fst].
    rewrite S1, S2. unfold std_update, gamma_from_nat, gamma_nat. simpl. f_equal; (apply f_equal2; [ring|reflexivity]). }
  assert (Neg : sumf (fun ab => digamma (snd ab) - digamma (fst ab + snd ab)) c <= 0).
  { assert (H : 0 <= sumf (fun ab => - (digamma (snd ab) - digamma (fst ab + snd ab))) c).
    { apply sumf_nonneg. intros ab Hab. unfold positive_sticks in Hp. rewrite Forall_forall in Hp. specialize (Hp ab Hab).
      assert (M := digamma_mono (snd ab) (fst ab + snd ab) ltac:(lra) ltac:(lra)). lra. }
    rewrite sumf_opp in H. lra. }
  apply Forall_inv in G3. apply Forall_inv in G4.
  assert (Pn := pos_INR n).
  split; [exact E|]. split; [reflexivity|]. split; [reflexivity|]. split; [lra|]. split.
  - rewrite E. split; [reflexivity|]. split; [reflexivity|]. split; repeat constructor; simpl; lra.
  - change (snd out) with (on_concentration_update (fst out) prior). rewrite E.
    unfold on_concentration_update, gamma_mean. simpl. reflexivity.
Qed.

(** Each prior Beta(1, g): the expected log-density is linear in the
    statistics handed over, (E[ln (1 - v)], 1), with natural parameters
    (g, ln g), up to a term free of g. *)
Theorem C92_statistics_are_the_likelihood : forall n ord c g, is_order n ord -> length c = n -> positive_sticks c ->
  0 < g ->
  (* E[ln Beta(v_k; 1, g)] = ln g + (g - 1) E[ln (1 - v_k)] *)
  sumf (fun ab => (lgamma (1 + g) - lgamma 1 - lgamma g) + (1 - 1) * (digamma (fst ab) - digamma (fst ab + snd ab))
                  + (g - 1) * (digamma (snd ab) - digamma (fst ab + snd ab))) c
  = dot (concentration_stats ord c) [g; ln g]
    - sumf (fun ab => digamma (snd ab) - digamma (fst ab + snd ab)) c.
Proof.
  intros n ord c g Ho Hc Hp Hg.
  assert (S1 : rsum (map (el1v c) ord) = sumf (fun ab => digamma (snd ab) - digamma (fst ab + snd ab)) c).
  { fold (sumf (el1v c) ord). rewrite (sumf_perm _ _ _ Ho). unfold sumf.
    rewrite <- (seq_nth_map (0, 0) c) at 2. rewrite map_map, Hc. reflexivity. }
  assert (S2 : rsum (map (fun _ => 1) (map (el1v c) ord)) = INR n).
  { rewrite map_map. fold (sumf (fun _ : nat => 1) ord). rewrite sumf_const, (ord_length n ord Ho). ring. }
  unfold concentration_stats, log_prob. rewrite log_v_value, S1, S2.
  rewrite (sumf_ext _ (fun ab => ln g + (g - 1) * (digamma (snd ab) - digamma (fst ab + snd ab)))).
  - rewrite sumf_plus, sumf_const, sumf_scal_l, Hc. unfold dot, vmul. simpl. ring.
  - intros ab Hab. rewrite (Rplus_comm 1 g), lgamma_rec, lgamma_1 by auto. ring.
Qed.

Example C92_ex :
  on_stickbreaking_update [1; 0]%nat [(1, 1); (1, 1)]
    {| g_shape := [3]; g_rate := [4] |} {| g_shape := [1]; g_rate := [1] |} [(1, 9); (1, 9)] =
  ({| g_shape := [5]; g_rate := [6] |}, [(1, 5/6); (1, 5/6)]).
Proof.
  assert (E : digamma (1 + 1) = digamma 1 + 1) by (rewrite digamma_rec by lra; lra).
  assert (G : std_update gamma_nat gamma_from_nat 1 {| g_shape := [3]; g_rate := [4] |}
    {| g_shape := [1]; g_rate := [1] |} (concentration_stats [1; 0]%nat [(1, 1); (1, 1)]) =
    {| g_shape := [5]; g_rate := [6] |}).
  { unfold concentration_stats, log_prob, log_v, reorder, std_update, gamma_from_nat, gamma_nat. simpl. rewrite E.
    f_equal; (apply f_equal2; [lra|reflexivity]). }
  unfold on_stickbreaking_update. rewrite G. unfold on_concentration_update, gamma_mean. simpl. reflexivity.
Qed.

(** ** C93: prior of a set of stick-breaking processes *)
Lemma cumsum_length l : length (cumsum l) = length l.
Proof. apply cumsum_from_length. Qed.

Lemma set_prior_row_nth s mean k : (k < length mean)%nat ->
  nth k (set_prior_row s mean) (0, 0) = (s * nth k mean 0, s * (1 - rsum (firstn (S k) mean))).
Proof.
  intros Hk. unfold set_prior_row.
  rewrite (map2_nth _ _ _ k 0 0 (0, 0)) by (rewrite ?cumsum_length; auto).
  unfold cumsum. rewrite cumsum_from_nth by auto. rewrite Rplus_0_l. reflexivity.
Qed.

Lemma rsum_firstn_le l k : Forall (fun x => 0 <= x) l -> rsum (firstn k l) <= rsum l.
Proof.
  intros H. rewrite <- (firstn_skipn k l) at 2. rewrite rsum_app.
  assert (0 <= rsum (skipn k l)); [|lra].
  rewrite rsum_sumf. apply sumf_nonneg. intros x Hx. rewrite Forall_forall in H. apply H. now apply In_skipn in Hx.
Qed.

(** The prior is proper for every order of the root. *)
Theorem C93_set_prior_proper : forall n m ord c eps strength,
  is_order n ord -> length c = n -> positive_sticks c -> 0 <= eps -> 0 < strength ->
  length (set_prior m strength (sb_mean eps ord c)) = (m * n)%nat /\
  positive_sticks (set_prior m strength (sb_mean eps ord c)).
Proof.
  intros n m ord c eps strength Ho Hc Hp He Hs.
  assert (L := sb_mean_length n ord c eps Ho).
  assert (P : forall k, (k < n)%nat -> 0 < sa c k /\ 0 < sb c k) by (intros; apply positive_nth; auto; lia).
  assert (P' : forall k, (k < n)%nat -> 0 <= sa c k /\ 0 <= sb c k /\ 0 < sa c k + sb c k + eps).
  { intros k Hk. destruct (P k Hk). lra. }
  assert (T := sb_mean_total n ord c eps Ho Hc P' He).
  assert (R : 0 < rprod (map (sr c eps) (seq 0 n))).
  { apply rprod_pos. intros x Hx. apply in_map_iff in Hx. destruct Hx as (k & <- & Hk). apply in_seq in Hk.
    destruct (P k ltac:(lia)). unfold sr. apply Rdiv_lt_0_compat; lra. }
  assert (NN := sb_mean_nonneg n ord c eps Ho Hc P' He).
  assert (Row : positive_sticks (set_prior_row strength (sb_mean eps ord c))).
  { apply Forall_forall. intros ab Hab. destruct (In_nth _ _ (0, 0) Hab) as (k & Hk & <-).
    assert (Hk' : (k < n)%nat).
    { unfold set_prior_row in Hk. rewrite map2_length, cumsum_length in Hk. lia. }
    rewrite set_prior_row_nth by lia. cbn [fst snd]. split.
    - apply Rmult_lt_0_compat; auto. destruct (ord_onto n ord Ho k Hk') as (i & Hi & <-).
      rewrite (sb_mean_nth n) by auto. apply Rmult_lt_0_compat.
      + unfold sv. destruct (P _ Hk'). apply Rdiv_lt_0_compat; lra.
      + apply rprod_pos. intros x Hx. apply in_map_iff in Hx. destruct Hx as (j & <- & Hj).
        apply In_firstn in Hj. apply (ord_lt n ord Ho) in Hj. destruct (P j Hj). unfold sr. apply Rdiv_lt_0_compat; lra.
    - apply Rmult_lt_0_compat; auto. assert (F := rsum_firstn_le _ (S k) NN). lra. }
  assert (LR : length (set_prior_row strength (sb_mean eps ord c)) = n).
  { unfold set_prior_row. rewrite map2_length, cumsum_length; lia. }
  unfold set_prior. induction m as [|m (IH1 & IH2)]; cbn [repeat concat].
  - split; [reflexivity|constructor].
  - split; [rewrite app_length, IH1, LR; lia|]. apply Forall_app. auto.
Qed.

(** With the root in its initial order, the sticks of a member are centred on
    those of the root and so are its weights. *)
Theorem C93_set_prior_centred_partial : forall n c strength,
  length c = n -> positive_sticks c -> 0 < strength ->
  let root := sb_mean 0 (seq 0 n) c in
  let row := set_prior_row strength root in
  (forall k, (k < n)%nat ->
     let '(a, b) := nth k row (0, 0) in
     a / (a + b) = fst (nth k c (0, 0)) / (fst (nth k c (0, 0)) + snd (nth k c (0, 0)))) /\
  sb_mean 0 (seq 0 n) row = root.
Proof.
  intros n c strength Hc Hp Hs root row.
  assert (Ho : is_order n (seq 0 n)) by apply Permutation_refl.
  assert (L : length root = n) by (now apply sb_mean_length).
  assert (LR : length row = n) by (unfold row, set_prior_row; rewrite map2_length, cumsum_length; lia).
  assert (P : forall k, (k < n)%nat -> 0 < sa c k /\ 0 < sb c k) by (intros; apply positive_nth; auto; lia).
  assert (RN : forall i, (i < n)%nat -> nth i root 0 = sv c 0 i * rprod (map (sr c 0) (seq 0 i))).
  { intros i Hi. assert (E := sb_mean_nth n (seq 0 n) c 0 Ho Hc i Hi). rewrite seq_nth in E by auto.
    cbn [Nat.add] in E. unfold root. rewrite E. f_equal. f_equal. f_equal.
    rewrite firstn_seq. f_equal. lia. }
  assert (VR : forall k, (k < n)%nat -> sv c 0 k = 1 - sr c 0 k /\ 0 < sr c 0 k).
  { intros k Hk. destruct (P k Hk). unfold sv, sr. split; [field; lra|apply Rdiv_lt_0_compat; lra]. }
  assert (CS : forall k, (k <= n)%nat -> rsum (firstn k root) = 1 - rprod (map (sr c 0) (seq 0 k))).
  { induction k as [|k IH]; intros Hk; [simpl; lra|].
    rewrite (firstn_S_nth _ _ 0) by lia. rewrite rsum_app, IH by lia. cbn [rsum].
    rewrite seq_S, map_app, rprod_app. cbn [map rprod Nat.add]. rewrite RN by lia.
    destruct (VR k ltac:(lia)) as (-> & _). ring. }
  assert (ROW : forall k, (k < n)%nat -> nth k row (0, 0) =
     (strength * (sv c 0 k * rprod (map (sr c 0) (seq 0 k))),
      strength * (sr c 0 k * rprod (map (sr c 0) (seq 0 k))))).
  { intros k Hk. unfold row. rewrite set_prior_row_nth by lia. rewrite RN, CS by lia.
    f_equal. f_equal. rewrite seq_S, map_app, rprod_app. cbn [map rprod Nat.add]. ring. }
  assert (PR : forall k, (k <= n)%nat -> 0 < rprod (map (sr c 0) (seq 0 k))).
  { intros k Hk. apply rprod_pos. intros x Hx. apply in_map_iff in Hx. destruct Hx as (j & <- & Hj).
    apply in_seq in Hj. apply VR. lia. }
  assert (FR : forall k, (k < n)%nat ->
     sv row 0 k = sv c 0 k /\ sr row 0 k = sr c 0 k).
  { intros k Hk. unfold sv at 1, sr at 1, sa, sb. rewrite ROW by auto. cbn [fst snd].
    destruct (VR k Hk) as (V & _). specialize (PR k ltac:(lia)).
    set (r := rprod _) in *.
    replace (strength * (sv c 0 k * r) + strength * (sr c 0 k * r) + 0) with (strength * r) by (rewrite V; ring).
    split; field; lra. }
  split.
  - intros k Hk. destruct (FR k Hk) as (E & _). unfold sv, sa, sb in E. rewrite !Rplus_0_r in E.
    destruct (nth k row (0, 0)). exact E.
  - apply vec_ext; [rewrite (sb_mean_length n); auto|]. rewrite (sb_mean_length n) by auto. intros k Hk.
    assert (E := sb_mean_nth n (seq 0 n) row 0 Ho LR k Hk). rewrite seq_nth in E by auto. cbn [Nat.add] in E.
    rewrite E, RN by auto. destruct (FR k Hk) as (-> & _). f_equal. f_equal.
    rewrite firstn_seq. replace (Nat.min k n) with k by lia. apply map_ext_in. intros j Hj. apply in_seq in Hj.
    apply FR. lia.
Qed.

(** Once the root has been re-ordered this fails, whatever the (small) constant
    in the normalisers: the cumulated sum is taken in component order. *)
Theorem C93_reordered_root_refuted : exists ord c, is_order 2 ord /\ positive_sticks c /\ length c = 2%nat /\
  forall eps, 0 <= eps <= 1/100 ->
  let root := sb_mean eps ord c in
  nth 1 (sb_mean eps ord (set_prior_row 1 root)) 0 > nth 1 root 0 + 1/10.
Proof.
  exists [1; 0]%nat, [(1, 1); (1, 1)]. split; [apply perm_swap|]. split; [repeat constructor; simpl; lra|].
  split; [reflexivity|]. intros eps He root.
  assert (H1 : root = [1 / (1 + 1 + eps) * (1 * (1 / (1 + 1 + eps))); 1 / (1 + 1 + eps)]) by reflexivity.
  set (x := 1 / (1 + 1 + eps)) in H1.
  assert (Hx : 49/100 <= x <= 1/2).
  { unfold x. split.
    - apply (Rmult_le_reg_r (1 + 1 + eps)); [lra|]. unfold Rdiv at 2. rewrite Rmult_assoc, Rinv_l by lra. lra.
    - apply (Rmult_le_reg_r (1 + 1 + eps)); [lra|]. unfold Rdiv at 1. rewrite Rmult_assoc, Rinv_l by lra. lra. }
  rewrite H1.
  assert (H2 : nth 1 (sb_mean eps [1; 0]%nat (set_prior_row 1 [x * (1 * x); x])) 0 =
    1 * x / (1 * x + 1 * (1 - (0 + x * (1 * x) + x)) + eps)) by reflexivity.
  rewrite H2. cbn [nth].
  assert (D : 0 < 1 * x + 1 * (1 - (0 + x * (1 * x) + x)) + eps <= 77/100) by nra.
  apply Rlt_gt. apply (Rmult_lt_reg_r (1 * x + 1 * (1 - (0 + x * (1 * x) + x)) + eps)); [lra|].
  replace (1 * x / (1 * x + 1 * (1 - (0 + x * (1 * x) + x)) + eps) * (1 * x + 1 * (1 - (0 + x * (1 * x) + x)) + eps)) with x by (field; lra).
  nra.
Qed.

Example C93_ex : set_prior_row 2 [1/2; 1/4] = [(1, 1); (1/2, 1/2)].
Proof.
  unfold set_prior_row, cumsum. simpl. repeat (apply f_equal2; [apply f_equal2; lra|]). reflexivity.
Qed.

Print Assumptions C43_update.
Print Assumptions C43_set_tail_counts.
Print Assumptions C44_weights_subprobability.
Print Assumptions C91_expected_log_weights.
Print Assumptions C92_concentration_update.
Print Assumptions C93_set_prior_centred_partial.
Print Assumptions C93_reordered_root_refuted.
Print Assumptions C44_set_members.

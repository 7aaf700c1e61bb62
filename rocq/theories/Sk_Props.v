(** Training stick-breaking models: C165, C166. *)
From Coq Require Import Reals List Arith Bool Lia Lra Permutation.
From Verif Require Import Prelude Vec Gibbs Lgamma Dist_Model Dist_Spec Dist_Proofs KL_Proofs Dist_Props Llh_Proofs SB_Model SB_Spec SB_Proofs SB_Props Sk_Model Sk_Spec Sk_Proofs.
Import ListNotations.
Local Open Scope R_scope.

(** ** C165 *)

(** What is reported is the bound. *)
Theorem C165_objective_is_the_bound : forall n prior ord post counts,
  is_order n ord -> length prior = n -> length post = n -> length counts = n ->
  sb_objective prior ord post counts = stick_bound prior ord post counts.
Proof. apply objective_stick_bound. Qed.

Lemma update_one sort prior post counts n :
  length prior = n -> length post = n -> length counts = n -> sorts_desc counts (sort counts) ->
  let ord := fst (sb_update sort 1 prior post counts) in
  let post' := snd (sb_update sort 1 prior post counts) in
  forall i, (i < n)%nat -> nthp post' (nth i ord 0%nat) =
    (fst (nthp prior (nth i ord 0%nat)) + nth (nth i ord 0%nat) counts 0,
     snd (nthp prior (nth i ord 0%nat)) + tail_count ord counts i).
Proof.
  intros H1 H2 H3 Hs ord post' i Hi.
  destruct (C43_update sort 1 prior post counts n H1 H2 H3 Hs) as (_ & _ & U & _).
  unfold nthp, ord, post'. rewrite U by auto. f_equal; ring.
Qed.

(** A full step, with the order of the counts, gives the best bound of all
    orders and all sticks. *)
Theorem C165_full_step_is_best : forall sort p n prior post counts,
  0 < fst p -> 0 < snd p -> same_prior p n prior -> length post = n -> length counts = n ->
  Forall (fun x => 0 <= x) counts -> sorts_desc counts (sort counts) ->
  let (ord', post') := sb_update sort 1 prior post counts in
  forall ord q, is_order n ord -> length q = n -> positive_sticks q ->
    stick_bound prior ord q counts <= stick_bound prior ord' post' counts.
Proof.
  intros sort p n prior post counts P1 P2 Hp Hq Hl Hn Hs.
  assert (L := prior_length n p prior Hp).
  assert (U := update_one sort prior post counts n L Hq Hl Hs).
  assert (U1 := C43_update sort 1 prior post counts n L Hq Hl Hs).
  destruct (sb_update sort 1 prior post counts) as (ord', post') eqn:E. cbn [fst snd] in *.
  destruct U1 as (U1 & U2 & _). subst ord'. destruct Hs as (Ho' & Hd).
  rewrite Hl in Ho', Hd. intros ord q Ho Hlq Hpq.
  rewrite <- !(objective_stick_bound n) by auto.
  rewrite (objective_eq n p prior counts Hp Hl (sort counts) post') by
    (auto; intros i Hi; rewrite U by auto; now rewrite (nth_same_prior p n prior) by (auto; now apply ord_nth_lt)).
  eapply Rle_trans; [apply (objective_le n p prior counts P1 P2 Hp Hl Hn ord q Ho Hlq Hpq)|].
  apply best_decr; auto.
  - apply Forall_forall. intros x Hx. apply in_map_iff in Hx. destruct Hx as (k & <- & Hk).
    apply (f_nonneg n counts Hl Hn).
  - apply Permutation_map. rewrite Ho. now rewrite Ho'.
  - apply nth_decr. rewrite map_length, (ord_length n) by auto. intros i j Hij Hj.
    rewrite !(map_nth_lt _ _ _ 0%nat) by (rewrite (ord_length n) by auto; lia). now apply Hd.
Qed.

(** Hence a full step never decreases the objective. *)
Theorem C165_full_step : forall sort p n prior ord post counts,
  0 < fst p -> 0 < snd p -> same_prior p n prior -> is_order n ord -> length post = n -> length counts = n ->
  positive_sticks post -> Forall (fun x => 0 <= x) counts -> sorts_desc counts (sort counts) ->
  let (ord', post') := sb_update sort 1 prior post counts in
  sb_objective prior ord post counts <= sb_objective prior ord' post' counts.
Proof.
  intros sort p n prior ord post counts P1 P2 Hp Ho Hq Hl Hpos Hn Hs.
  assert (L := prior_length n p prior Hp).
  assert (B := C165_full_step_is_best sort p n prior post counts P1 P2 Hp Hq Hl Hn Hs).
  assert (U1 := C43_update sort 1 prior post counts n L Hq Hl Hs).
  destruct (sb_update sort 1 prior post counts) as (ord', post'). cbn [fst snd] in *.
  destruct U1 as (U1 & U2 & _). destruct Hs as (Ho' & _). rewrite Hl in Ho'. subst ord'.
  rewrite !(objective_stick_bound n) by auto. now apply B.
Qed.

(** With a smaller step, as long as the order does not change, also. *)
Lemma stick_step lrate q p x r :
  0 < fst q -> 0 < snd q -> 0 < fst p -> 0 < snd p -> 0 <= x -> 0 <= r -> 0 <= lrate <= 1 ->
  let q' := ((1 - lrate) * fst q + lrate * (fst p + x), (1 - lrate) * snd q + lrate * (snd p + r)) in
  x * e_ln_v q + r * e_ln_rest q - dir_kl [fst q; snd q] [fst p; snd p] <=
  x * e_ln_v q' + r * e_ln_rest q' - dir_kl [fst q'; snd q'] [fst p; snd p].
Proof.
  intros Q1 Q2 P1 P2 Hx Hr Hl q'.
  assert (G : forall t, 0 < fst t -> 0 < snd t ->
     x * e_ln_v t + r * e_ln_rest t - dir_kl [fst t; snd t] [fst p; snd p] =
     (fst p + x - fst t) * e_ln_v t + (snd p + r - snd t) * e_ln_rest t + log_beta (fst t) (snd t) - log_beta (fst p) (snd p)).
  { intros t _ _. rewrite dir_kl_beta. ring. }
  assert (Q' : 0 < fst q' /\ 0 < snd q').
  { unfold q'. cbn [fst snd].
    destruct (Req_dec lrate 0) as [->|N]; [lra|].
    assert (0 < lrate * (fst p + x)) by (apply Rmult_lt_0_compat; lra).
    assert (0 < lrate * (snd p + r)) by (apply Rmult_lt_0_compat; lra).
    assert (0 <= (1 - lrate) * fst q) by (apply Rmult_le_pos; lra).
    assert (0 <= (1 - lrate) * snd q) by (apply Rmult_le_pos; lra). lra. }
  rewrite !G by tauto. destruct Q' as (Q1' & Q2').
  (* log_beta is convex: its gradient is monotone *)
  assert (T1 := beta_tangent (fst q') (snd q') (fst q) (snd q) Q1' Q2' Q1 Q2).
  assert (T2 := beta_tangent (fst q) (snd q) (fst q') (snd q') Q1 Q2 Q1' Q2').
  assert (D1 : fst q' - fst q = lrate * (fst p + x - fst q)) by (unfold q'; cbn [fst]; ring).
  assert (D2 : snd q' - snd q = lrate * (snd p + r - snd q)) by (unfold q'; cbn [snd]; ring).
  assert (D1' : fst p + x - fst q' = (1 - lrate) * (fst p + x - fst q)) by (unfold q'; cbn [fst]; ring).
  assert (D2' : snd p + r - snd q' = (1 - lrate) * (snd p + r - snd q)) by (unfold q'; cbn [snd]; ring).
  rewrite D1', D2'.
  replace (fst q - fst q') with (- (lrate * (fst p + x - fst q))) in T2 by (rewrite <- D1; ring).
  replace (snd q - snd q') with (- (lrate * (snd p + r - snd q))) in T2 by (rewrite <- D2; ring).
  rewrite D1, D2 in T1. unfold log_beta. fold (e_ln_v q) (e_ln_rest q) in T1. fold (e_ln_v q') (e_ln_rest q') in T2.
  set (u := fst p + x - fst q) in *. set (v := snd p + r - snd q) in *.
  set (A := lgamma (fst q) + lgamma (snd q) - lgamma (fst q + snd q)) in *.
  set (A' := lgamma (fst q') + lgamma (snd q') - lgamma (fst q' + snd q')) in *.
  set (g := u * e_ln_v q + v * e_ln_rest q). set (g' := u * e_ln_v q' + v * e_ln_rest q').
  (* lrate g <= A' - A <= lrate g' *)
  assert (I1 : lrate * g <= A' - A) by (unfold g; lra).
  assert (I2 : A' - A <= lrate * g') by (unfold g'; lra).
  replace ((1 - lrate) * u * e_ln_v q' + (1 - lrate) * v * e_ln_rest q') with ((1 - lrate) * g') by (unfold g'; ring).
  fold g.
  destruct (Req_dec lrate 0) as [->|N].
  { assert (E : q' = q).
    { unfold q'. destruct q as (qa, qb). cbn [fst snd]. f_equal; ring. }
    assert (g' = g) by (unfold g', g; now rewrite E). lra. }
  assert (I3 : g <= g') by (apply Rmult_le_reg_l with lrate; lra).
  assert (0 <= (1 - lrate) * (g' - g)) by (apply Rmult_le_pos; lra). lra.
Qed.

Theorem C165_same_order_partial : forall sort lrate n prior post counts,
  length prior = n -> length post = n -> length counts = n ->
  positive_sticks prior -> positive_sticks post -> Forall (fun x => 0 <= x) counts ->
  sorts_desc counts (sort counts) -> 0 <= lrate <= 1 ->
  let (ord', post') := sb_update sort lrate prior post counts in
  sb_objective prior (sort counts) post counts <= sb_objective prior ord' post' counts.
Proof.
  intros sort lrate n prior post counts L Hq Hl Hpp Hpos Hn Hs Hr.
  assert (U := C43_update sort lrate prior post counts n L Hq Hl Hs).
  destruct (sb_update sort lrate prior post counts) as (ord', post'). cbn [fst snd] in *.
  destruct U as (-> & U2 & U & _). destruct Hs as (Ho & _). rewrite Hl in Ho.
  unfold sb_objective. rewrite !(ellh_by_stick n), !(sb_kl_nth n) by auto.
  rewrite <- !(sumf_perm _ _ _ Ho).
  assert (U' : forall i, (i < n)%nat -> nthp post' (nth i (sort counts) 0%nat) =
    ((1 - lrate) * fst (nthp post (nth i (sort counts) 0%nat)) + lrate * (fst (nthp prior (nth i (sort counts) 0%nat)) + nth (nth i (sort counts) 0%nat) counts 0),
     (1 - lrate) * snd (nthp post (nth i (sort counts) 0%nat)) + lrate * (snd (nthp prior (nth i (sort counts) 0%nat)) + tail_count (sort counts) counts i))) by exact U.
  clear U. 
  assert (I : forall k, In k (sort counts) -> (0 < fst (nthp post k) /\ 0 < snd (nthp post k)) /\ 0 < fst (nthp prior k) /\ 0 < snd (nthp prior k)).
  { intros k Hk. apply (ord_lt n _ Ho) in Hk. split; apply positive_nth; auto; lia. }
  assert (F := f_nonneg n counts Hl Hn).
  rewrite <- (ord_length n _ Ho) in U'. clear Ho U2. induction (sort counts) as [|k t IH]; [simpl; rewrite !sumf_nil; lra|].
  cbn [by_stick]. rewrite !sumf_cons.
  destruct (I k (or_introl eq_refl)) as ((I1 & I2) & I3 & I4).
  assert (E := U' 0%nat ltac:(simpl; lia)). cbn [nth] in E. unfold tail_count in E. cbn [skipn] in E.
  assert (St := stick_step lrate (nthp post k) (nthp prior k) (nth k counts 0) (sumf (fun k => nth k counts 0) t)
     I1 I2 I3 I4 (F k) ltac:(apply sumf_nonneg; intros; apply F) Hr).
  cbn zeta in St. rewrite <- E in St.
  assert (IH' := IH (fun i Hi => U' (S i) ltac:(simpl; lia)) (fun k' H => I k' (or_intror H))). lra.
Qed.

(** The order changes at once even when the sticks move by a fraction only:
    the objective may then decrease. *)
Lemma lgamma_2 : lgamma 2 = 0. Proof. replace 2 with (1 + 1) by lra. rewrite lgamma_rec, lgamma_1, ln_1 by lra. lra. Qed.
Lemma lgamma_3 : lgamma 3 = ln 2. Proof. replace 3 with (2 + 1) by lra. rewrite lgamma_rec, lgamma_2 by lra. lra. Qed.
Lemma lgamma_4 : lgamma 4 = ln 2 + ln 3. Proof. replace 4 with (3 + 1) by lra. rewrite lgamma_rec, lgamma_3 by lra. lra. Qed.
Lemma lgamma_5 : lgamma 5 = ln 2 + ln 3 + ln 4. Proof. replace 5 with (4 + 1) by lra. rewrite lgamma_rec, lgamma_4 by lra. lra. Qed.
Lemma lgamma_6 : lgamma 6 = ln 2 + ln 3 + ln 4 + ln 5. Proof. replace 6 with (5 + 1) by lra. rewrite lgamma_rec, lgamma_5 by lra. lra. Qed.
Lemma lgamma_7 : lgamma 7 = ln 2 + ln 3 + ln 4 + ln 5 + ln 6. Proof. replace 7 with (6 + 1) by lra. rewrite lgamma_rec, lgamma_6 by lra. lra. Qed.
Lemma lgamma_10 : lgamma 10 = lgamma 7 + ln 7 + ln 8 + ln 9.
Proof.
  replace 10 with (9 + 1) by lra. rewrite lgamma_rec by lra.
  replace (lgamma 9) with (lgamma (8 + 1)) by (f_equal; lra). rewrite lgamma_rec by lra.
  replace (lgamma 8) with (lgamma (7 + 1)) by (f_equal; lra). rewrite lgamma_rec by lra. lra.
Qed.

Lemma psi_2 : digamma 2 = digamma 1 + 1. Proof. replace 2 with (1 + 1) by lra. rewrite digamma_rec by lra. lra. Qed.
Lemma psi_3 : digamma 3 = digamma 2 + / 2. Proof. replace 3 with (2 + 1) by lra. rewrite digamma_rec by lra. lra. Qed.
Lemma psi_4 : digamma 4 = digamma 3 + / 3. Proof. replace 4 with (3 + 1) by lra. rewrite digamma_rec by lra. lra. Qed.
Lemma psi_5 : digamma 5 = digamma 4 + / 4. Proof. replace 5 with (4 + 1) by lra. rewrite digamma_rec by lra. lra. Qed.
Lemma psi_6 : digamma 6 = digamma 5 + / 5. Proof. replace 6 with (5 + 1) by lra. rewrite digamma_rec by lra. lra. Qed.
Lemma psi_7 : digamma 7 = digamma 6 + / 6. Proof. replace 7 with (6 + 1) by lra. rewrite digamma_rec by lra. lra. Qed.
Lemma psi_8 : digamma 8 = digamma 7 + / 7. Proof. replace 8 with (7 + 1) by lra. rewrite digamma_rec by lra. lra. Qed.
Lemma psi_9 : digamma 9 = digamma 8 + / 8. Proof. replace 9 with (8 + 1) by lra. rewrite digamma_rec by lra. lra. Qed.
Lemma psi_10 : digamma 10 = digamma 9 + / 9. Proof. replace 10 with (9 + 1) by lra. rewrite digamma_rec by lra. lra. Qed.

Lemma order_01 : is_order 2 [0; 1]%nat. Proof. apply Permutation_refl. Qed.
Lemma order_10 : is_order 2 [1; 0]%nat. Proof. apply perm_swap. Qed.

Lemma objective_2 p ord q0 q1 x0 x1 : is_order 2 ord ->
  sb_objective [p; p] ord [q0; q1] [x0; x1] =
  by_stick (fun k => nth k [x0; x1] 0) (fun k => e_ln_v (nthp [q0; q1] k)) (fun k => e_ln_rest (nthp [q0; q1] k)) ord
  - (dir_kl [fst q0; snd q0] [fst p; snd p] + dir_kl [fst q1; snd q1] [fst p; snd p]).
Proof.
  intros Ho. unfold sb_objective. rewrite (ellh_by_stick 2), (sb_kl_nth 2) by auto.
  f_equal. unfold sumf. cbn [seq map rsum nthp nth]. unfold nthp. cbn [nth]. ring.
Qed.

Theorem C165_refuted : exists prior ord post counts sort lrate,
  same_prior (1, 1) 2 prior /\ is_order 2 ord /\ length post = 2%nat /\ length counts = 2%nat /\
  positive_sticks post /\ Forall (fun x => 0 <= x) counts /\ sorts_desc counts (sort counts) /\
  0 < lrate < 1 /\
  let (ord', post') := sb_update sort lrate prior post counts in
  sb_objective prior ord' post' counts < sb_objective prior ord post counts.
Proof.
  exists [(1, 1); (1, 1)], [0; 1]%nat, [(3, 7); (4, 1)], [2; 3], (fun _ => [1; 0]%nat), (1/2).
  assert (Ht : sorts_desc [2; 3] [1; 0]%nat).
  { split; [apply order_10|]. intros i j Hij Hj. simpl in Hj.
    assert (i = 0%nat) by lia. assert (j = 1%nat) by lia. subst. simpl. lra. }
  split; [reflexivity|]. split; [apply order_01|]. split; [reflexivity|]. split; [reflexivity|].
  split. { constructor; [simpl; lra|constructor; [simpl; lra|constructor]]. }
  split. { constructor; [lra|constructor; [lra|constructor]]. }
  split; [exact Ht|]. split; [lra|].
  assert (E : sb_update (fun _ => [1; 0]%nat) (1/2) [(1, 1); (1, 1)] [(3, 7); (4, 1)] [2; 3] = ([1; 0]%nat, [(3, 4); (4, 2)])).
  { unfold sb_update, transform_stats, reverse_ordering, reorder, cumsum. simpl.
    rewrite !stick_update_value. simpl. f_equal.
    repeat (apply f_equal2; [apply f_equal2; lra|]). reflexivity. }
  rewrite E. rewrite !objective_2 by (apply order_10 || apply order_01).
  rewrite !dir_kl_beta. unfold by_stick, e_ln_v, e_ln_rest, log_beta, nthp, sumf. cbn [map rsum nth fst snd].
  replace (3 + 4) with 7 by lra. replace (4 + 2) with 6 by lra. replace (3 + 7) with 10 by lra. replace (4 + 1) with 5 by lra.
  rewrite psi_10, psi_9, psi_8, psi_7, psi_6, psi_5, psi_4, psi_3, psi_2.
  rewrite lgamma_10, lgamma_7, lgamma_6, lgamma_5, lgamma_4, lgamma_3, lgamma_2, lgamma_1.
  assert (L6 : ln 6 = ln 2 + ln 3) by (rewrite <- ln_mult by lra; f_equal; lra).
  assert (L4 : ln 4 = ln 2 + ln 2) by (rewrite <- ln_mult by lra; f_equal; lra).
  assert (L8 : ln 8 = ln 2 + ln 2 + ln 2) by (rewrite <- !ln_mult by lra; f_equal; lra).
  assert (L9 : ln 9 = ln 3 + ln 3) by (rewrite <- ln_mult by lra; f_equal; lra).
  assert (L : ln 3 + ln 7 < ln 5 + ln 5) by (rewrite <- !ln_mult by lra; apply ln_increasing; lra).
  rewrite L8, L9, L6, L4. lra.
Qed.

Example C165_ex :
  (* Beta(1, 1) sticks, counts 0 and 1: the second component is moved first *)
  sb_update (fun _ => [1; 0]%nat) 1 [(1, 1); (1, 1)] [(1, 1); (1, 1)] [0; 1] = ([1; 0]%nat, [(1, 1); (2, 1)]) /\
  sb_objective [(1, 1); (1, 1)] [0; 1]%nat [(1, 1); (1, 1)] [0; 1] = -2 /\
  sb_objective [(1, 1); (1, 1)] [1; 0]%nat [(1, 1); (2, 1)] [0; 1] = - ln 2.
Proof.
  split; [|split].
  - unfold sb_update, transform_stats, reverse_ordering, reorder, cumsum. simpl.
    rewrite !stick_update_value. simpl. f_equal.
    repeat (apply f_equal2; [apply f_equal2; lra|]). reflexivity.
  - rewrite objective_2 by apply order_01. rewrite !dir_kl_beta.
    unfold by_stick, e_ln_v, e_ln_rest, log_beta, nthp, sumf. cbn [map rsum nth fst snd].
    replace (1 + 1) with 2 by lra. rewrite psi_2, lgamma_2, lgamma_1. lra.
  - rewrite objective_2 by apply order_10. rewrite !dir_kl_beta.
    unfold by_stick, e_ln_v, e_ln_rest, log_beta, nthp, sumf. cbn [map rsum nth fst snd].
    replace (1 + 1) with 2 by lra. replace (2 + 1) with 3 by lra. rewrite psi_3, psi_2, lgamma_3, lgamma_2, lgamma_1. lra.
Qed.

(** ** C166: with a hyper-prior on the concentration *)
Definition shape (g : gamma_par) : R := nth 0 (g_shape g) 0.
Definition rate (g : gamma_par) : R := nth 0 (g_rate g) 0.

Lemma gamma_1 g : gamma_ok 1 g -> g = {| g_shape := [shape g]; g_rate := [rate g] |} /\ 0 < shape g /\ 0 < rate g.
Proof.
  destruct g as [sh ra]. intros (G1 & G2 & G3 & G4). unfold shape, rate in *. cbn [g_shape g_rate] in *.
  destruct sh as [|a0 [|x sh]]; simpl in G1; try discriminate.
  destruct ra as [|b0 [|y ra]]; simpl in G2; try discriminate.
  inversion G3; inversion G4; subst. cbn [nth]. auto.
Qed.

(** The joint bound of a state *)
Definition joint_of (gprior : gamma_par) (h : hyper) (counts : list R) : R :=
  joint_bound (shape gprior) (rate gprior) (h_ord h) (h_sticks h) (shape (h_gamma h)) (rate (h_gamma h)) counts.

Definition hyper_ok (n : nat) (h : hyper) : Prop :=
  is_order n (h_ord h) /\ length (h_sticks h) = n /\ positive_sticks (h_sticks h) /\ gamma_ok 1 (h_gamma h) /\
  same_prior (1, shape (h_gamma h) / rate (h_gamma h)) n (h_prior h).

Lemma gamma_kl_1 a b a0 b0 : 
  gamma_kl {| g_shape := [a]; g_rate := [b] |} {| g_shape := [a0]; g_rate := [b0] |} =
  gamma_cross a b a b - gamma_cross a b a0 b0.
Proof.
  unfold gamma_kl, kl_div, gamma_nat, gamma_ess, gamma_log_norm, gamma_cross. simpl. ring.
Qed.

Lemma digamma_lt_ln a : 0 < a -> digamma a < ln a.
Proof.
  intros Ha. assert (H := digamma_le_ln (a + 1) ltac:(lra)). rewrite digamma_rec in H by auto.
  assert (E : ln (a + 1) = ln a + ln (1 + / a)).
  { rewrite <- ln_mult by (try lra; assert (0 < / a) by (now apply Rinv_0_lt_compat); lra). f_equal. field. lra. }
  assert (I : 0 < / a) by (now apply Rinv_0_lt_compat).
  assert (X := exp_ineq1 (/ a) ltac:(lra)). apply ln_increasing in X; [|lra]. rewrite ln_exp in X. lra.
Qed.

Lemma sumf_sticks (F : R * R -> R) l : sumf F l = sumf (fun k => F (nth k l (0, 0))) (seq 0 (length l)).
Proof. rewrite <- (seq_nth_map (0, 0) l) at 1. now rewrite sumf_map. Qed.

Lemma sum_lin (u v : R) (e k : R * R -> R) l :
  sumf (fun q => u + v * e q - k q) l = INR (length l) * u + v * sumf e l - sumf k l.
Proof. now rewrite sumf_minus, sumf_plus, sumf_const, sumf_scal_l. Qed.

Lemma log_beta_1 g : 0 < g -> log_beta 1 g = - ln g.
Proof. intros Hg. unfold log_beta. rewrite (Rplus_comm 1 g), lgamma_rec, lgamma_1 by auto. lra. Qed.

Lemma reported_minus_bound n gprior h counts : hyper_ok n h -> gamma_ok 1 gprior -> length counts = n ->
  let a := shape (h_gamma h) in let b := rate (h_gamma h) in
  hyper_objective h counts =
  joint_of gprior h counts + gamma_kl (h_gamma h) gprior + INR n * (ln (a / b) - (digamma a - ln b)).
Proof.
  intros (Ho & Hc & Hp & Hg & Hs) Hgp Hl a b.
  destruct (gamma_1 _ Hg) as (Eg & Ga & Gb). destruct (gamma_1 _ Hgp) as (Egp & Gpa & Gpb).
  fold a b in Eg, Ga, Gb, Hs.
  assert (K : gamma_kl (h_gamma h) gprior = gamma_cross a b a b - gamma_cross a b (shape gprior) (rate gprior)).
  { rewrite Eg. rewrite Egp at 1. apply gamma_kl_1. }
  rewrite K.
  unfold hyper_objective, joint_of. fold a b. rewrite (objective_stick_bound n) by (auto using (prior_length n _ _ Hs)).
  unfold stick_bound, joint_bound. cbn zeta.
  assert (Hab : 0 < a / b) by (now apply Rdiv_lt_0_compat).
  assert (E : sumf (fun k => beta_cross (nth k (h_sticks h) (0, 0)) (nth k (h_prior h) (0, 0)) -
      beta_cross (nth k (h_sticks h) (0, 0)) (nth k (h_sticks h) (0, 0))) (seq 0 (length (h_sticks h))) =
    sumf (fun q => digamma a - ln b + (a / b - 1) * e_ln_rest q - beta_cross q q) (h_sticks h)
    + INR n * (ln (a / b) - (digamma a - ln b))).
  { rewrite (sumf_sticks _ (h_sticks h)), Hc.
    replace (INR n * (ln (a / b) - (digamma a - ln b))) with (sumf (fun _ : nat => ln (a / b) - (digamma a - ln b)) (seq 0 n))
      by (rewrite sumf_const, seq_length; reflexivity).
    rewrite <- sumf_plus.
    apply sumf_ext. intros k Hk. apply in_seq in Hk.
    assert (N := nth_same_prior _ n _ k Hs ltac:(lia)). unfold nthp in N. rewrite N.
    unfold beta_cross at 1. cbn [fst snd]. rewrite log_beta_1 by auto. ring. }
  rewrite E. ring.
Qed.

(** What is reported exceeds the joint bound: the divergence of the
    concentration is left out, and ln E[g] stands for E[ln g]. *)
Theorem C166_reported_minus_bound : forall n gprior h counts, hyper_ok n h -> gamma_ok 1 gprior -> length counts = n ->
  let a := shape (h_gamma h) in let b := rate (h_gamma h) in
  hyper_objective h counts =
  joint_of gprior h counts + gamma_kl (h_gamma h) gprior + INR n * (ln (a / b) - (digamma a - ln b)).
Proof. apply reported_minus_bound. Qed.

Theorem C166_reported_exceeds_bound : forall n gprior h counts, hyper_ok n h -> gamma_ok 1 gprior -> length counts = n ->
  (0 < n)%nat -> joint_of gprior h counts < hyper_objective h counts.
Proof.
  intros n gprior h counts Hh Hgp Hl Hn. rewrite (reported_minus_bound n gprior) by auto. cbn zeta.
  destruct Hh as (_ & _ & _ & Hg & _). destruct (gamma_1 _ Hg) as (_ & Ga & Gb).
  destruct (C40_gamma 1 _ _ Hg Hgp) as (K & _).
  rewrite ln_div by auto. assert (D := digamma_lt_ln _ Ga).
  assert (0 < INR n) by (apply lt_0_INR; lia).
  assert (0 < INR n * (ln (shape (h_gamma h)) - ln (rate (h_gamma h)) - (digamma (shape (h_gamma h)) - ln (rate (h_gamma h)))))
    by (apply Rmult_lt_0_compat; lra). lra.
Qed.

(** A full training step never decreases the joint bound, and the prior of
    the sticks keeps the expected concentration. *)
Theorem C166_full_step : forall sort n gprior h counts, hyper_ok n h -> gamma_ok 1 gprior -> length counts = n ->
  Forall (fun x => 0 <= x) counts -> sorts_desc counts (sort counts) ->
  let h' := hyper_update sort 1 gprior h counts in
  hyper_ok n h' /\ joint_of gprior h counts <= joint_of gprior h' counts.
Proof.
  intros sort n gprior h counts Hh Hgp Hl Hn Hs h'.
  pose proof Hh as (Ho & Hc & Hp & Hg & Hpr).
  destruct (gamma_1 _ Hg) as (Eg & Ga & Gb). destruct (gamma_1 _ Hgp) as (Egp & Gpa & Gpb).
  set (a := shape (h_gamma h)) in *. set (b := rate (h_gamma h)) in *.
  assert (Hab : 0 < a / b) by (now apply Rdiv_lt_0_compat).
  assert (L := prior_length n _ _ Hpr).
  assert (Pp : positive_sticks (h_prior h)).
  { unfold same_prior in Hpr. rewrite Hpr. apply Forall_forall. intros x Hx. apply repeat_spec in Hx. subst x. simpl. lra. }
  assert (Step := C165_full_step sort (1, a / b) n (h_prior h) (h_ord h) (h_sticks h) counts
    ltac:(simpl; lra) Hab Hpr Ho Hc Hl Hp Hn Hs).
  assert (U := C43_update sort 1 (h_prior h) (h_sticks h) counts n L Hc Hl Hs).
  assert (Pos := C43_positive_forever sort 1 (h_prior h) (h_sticks h) counts ltac:(lia) ltac:(lia) Hs Pp Hp Hn ltac:(lra)).
  unfold h', hyper_update. clear h'.
  destruct (sb_update sort 1 (h_prior h) (h_sticks h) counts) as (ord', c'). cbn [fst snd] in *.
  destruct U as (-> & Hc' & _). destruct Hs as (Ho' & _). rewrite Hl in Ho'.
  (* the concentration *)
  destruct (C92_concentration_update n (sort counts) c' gprior (h_gamma h) (h_prior h) Ho' Hc' Pos Hgp Hg)
    as (a0 & b0 & a' & b' & E0 & E1 & _ & _ & _ & G' & E2).
  assert (C41 := C41_gamma 1 gprior (h_gamma h) (concentration_stats (sort counts) c') 1 Hgp Hg).
  assert (Est : concentration_stats (sort counts) c' = [sumf e_ln_rest c'; INR n]).
  { unfold concentration_stats, log_prob. rewrite log_v_value. f_equal.
    - fold (sumf (el1v c') (sort counts)). rewrite (sumf_perm _ _ _ Ho'). 
      rewrite <- (seq_nth_map (0, 0) c') at 2. rewrite sumf_map, Hc'. reflexivity.
    - f_equal. rewrite map_map. fold (sumf (fun _ : nat => 1) (sort counts)). rewrite sumf_const, (ord_length n _ Ho'). ring. }
  assert (Neg : sumf e_ln_rest c' <= 0).
  { assert (H : 0 <= sumf (fun ab => - e_ln_rest ab) c').
    { apply sumf_nonneg. intros ab Hab'. unfold positive_sticks in Pos. assert (P' := proj1 (Forall_forall _ _) Pos ab Hab').
      assert (M := digamma_mono (snd ab) (fst ab + snd ab) ltac:(lra) ltac:(lra)). unfold e_ln_rest. lra. }
    rewrite sumf_opp in H. lra. }
  rewrite Est in C41 at 1.
  specialize (C41 eq_refl ltac:(lra)).
  assert (Cd : forall k, (k < 1)%nat -> nth k (concentration_stats (sort counts) c') 0 < nth k (g_rate gprior) 0 /\
      - nth (1 + k) (concentration_stats (sort counts) c') 0 < nth k (g_shape gprior) 0).
  { intros k Hk. assert (k = 0%nat) by lia. subst k. rewrite Est. cbn [nth Nat.add]. fold (shape gprior) (rate gprior).
    assert (Pn := pos_INR n). lra. }
  specialize (C41 Cd). clear Cd. cbn zeta in C41. destruct C41 as (C41 & _).
  unfold on_stickbreaking_update in *. cbn [fst snd] in *.
  set (g' := std_update gamma_nat gamma_from_nat 1 gprior (h_gamma h) (concentration_stats (sort counts) c')) in *.
  assert (Egg : shape g' = a' /\ rate g' = b') by (rewrite E1; auto). destruct Egg as (Ea' & Eb').
  assert (Hok : hyper_ok n {| h_ord := sort counts; h_sticks := c'; h_prior := on_concentration_update g' (h_prior h); h_gamma := g' |}).
  { split; [exact Ho'|]. split; [exact Hc'|]. split; [exact Pos|]. split; [exact G'|]. cbn [h_gamma h_prior].
    rewrite Ea', Eb', E2. unfold same_prior in *. rewrite Hpr. clear. induction n as [|n IH]; [reflexivity|]. cbn [repeat map]. now rewrite IH. }
  split; [exact Hok|].
  (* the sticks first, with the concentration as it was *)
  set (h1 := {| h_ord := sort counts; h_sticks := c'; h_prior := h_prior h; h_gamma := h_gamma h |}).
  assert (Hok1 : hyper_ok n h1) by (repeat split; auto; apply Hg).
  assert (R0 := reported_minus_bound n gprior h counts Hh Hgp Hl).
  assert (R1 := reported_minus_bound n gprior h1 counts Hok1 Hgp Hl).
  cbn zeta in R0, R1. unfold hyper_objective in R0, R1. cbn [h1 h_gamma h_prior h_ord h_sticks] in R0, R1.
  apply Rle_trans with (joint_of gprior h1 counts); [lra|].
  (* then the concentration *)
  unfold joint_of. cbn [h1 h_gamma h_ord h_sticks]. fold a b. unfold joint_bound. cbn zeta.
  unfold elbo_of in C41. rewrite Est in C41.
  fold (gamma_kl (h_gamma h) gprior) in C41. fold (gamma_kl g' gprior) in C41.
  destruct (gamma_1 _ G') as (Eg' & Ga' & Gb').
  rewrite Eg, Eg', Egp in C41. rewrite !gamma_kl_1 in C41. unfold gamma_ess, dot, vmul in C41. simpl in C41.
  rewrite !sum_lin, Hc'. lra.
Qed.

(** The reported value may decrease in such a step. *)
Theorem C166_refuted : exists sort gprior h counts,
  hyper_ok 1 h /\ gamma_ok 1 gprior /\ length counts = 1%nat /\ Forall (fun x => 0 <= x) counts /\
  sorts_desc counts (sort counts) /\
  hyper_objective (hyper_update sort 1 gprior h counts) counts < hyper_objective h counts /\
  joint_of gprior h counts < joint_of gprior (hyper_update sort 1 gprior h counts) counts.
Proof.
  exists (fun _ => [0%nat]), {| g_shape := [1]; g_rate := [1] |},
    {| h_ord := [0%nat]; h_sticks := [(1, 2)]; h_prior := [(1, 2)]; h_gamma := {| g_shape := [2]; g_rate := [1] |} |}, [0].
  assert (G : forall a b, 0 < a -> 0 < b -> gamma_ok 1 {| g_shape := [a]; g_rate := [b] |}).
  { intros a b A B. split; [reflexivity|]. split; [reflexivity|]. split; constructor; auto. }
  assert (O : is_order 1 [0%nat]) by apply Permutation_refl.
  split.
  { split; [exact O|]. split; [reflexivity|]. split; [constructor; [simpl; lra|constructor]|].
    split; [apply G; lra|]. unfold same_prior, shape, rate. simpl. do 2 f_equal. lra. }
  split; [apply G; lra|]. split; [reflexivity|]. split; [constructor; [lra|constructor]|].
  split. { split; [exact O|]. intros i j Hij Hj. simpl in Hj. lia. }
  assert (E1 : sb_update (fun _ => [0%nat]) 1 [(1, 2)] [(1, 2)] [0] = ([0%nat], [(1, 2)])).
  { unfold sb_update, transform_stats, reverse_ordering, reorder, cumsum. simpl.
    rewrite !stick_update_value. simpl. f_equal. apply f_equal2; [apply f_equal2; lra|reflexivity]. }
  assert (E2 : on_stickbreaking_update [0%nat] [(1, 2)] {| g_shape := [1]; g_rate := [1] |} {| g_shape := [2]; g_rate := [1] |} [(1, 2)]
    = ({| g_shape := [2]; g_rate := [3/2] |}, [(1, 4/3)])).
  { assert (Eg : std_update gamma_nat gamma_from_nat 1 {| g_shape := [1]; g_rate := [1] |}
      {| g_shape := [2]; g_rate := [1] |} (concentration_stats [0%nat] [(1, 2)]) = {| g_shape := [2]; g_rate := [3/2] |}).
    { unfold concentration_stats, log_prob, log_v, reorder, std_update, gamma_from_nat, gamma_nat. simpl.
      replace (1 + 2) with 3 by lra. rewrite psi_3. f_equal; (apply f_equal2; [lra|reflexivity]). }
    unfold on_stickbreaking_update. rewrite Eg. unfold on_concentration_update, gamma_mean. simpl.
    f_equal. apply f_equal2; [|reflexivity]. apply f_equal2; lra. }
  unfold hyper_update. cbn [h_prior h_sticks h_gamma]. rewrite E1, E2.
  assert (Obj : forall p, sb_objective [p] [0%nat] [(1, 2)] [0] = - dir_kl [1; 2] [fst p; snd p]).
  { intros p. unfold sb_objective. rewrite (ellh_by_stick 1), (sb_kl_nth 1) by auto.
    unfold by_stick, sumf, nthp. cbn [seq map rsum nth fst snd]. ring. }
  assert (L : ln 2 - ln (4/3) = ln (3/2)) by (rewrite <- ln_div by lra; f_equal; lra).
  assert (L1 : 1 / 3 < ln (3/2)).
  { assert (X : ln (2/3) < -1/3).
    { apply Rlt_le_trans with (ln (exp (-1/3))); [|rewrite ln_exp; lra].
      apply ln_increasing; [lra|]. assert (Y := exp_ineq1 (-1/3) ltac:(lra)). lra. }
    replace (2/3) with (/ (3/2)) in X by field. rewrite ln_Rinv in X by lra. lra. }
  split.
  - unfold hyper_objective. cbn [h_prior h_ord h_sticks]. rewrite !Obj. cbn [fst snd].
    assert (D1 := dir_kl_beta (1, 2) (1, 4/3)). assert (D2 := dir_kl_beta (1, 2) (1, 2)). cbn [fst snd] in D1, D2.
    rewrite D1, D2. rewrite !log_beta_1 by lra.
    unfold e_ln_v, e_ln_rest. cbn [fst snd]. replace (1 + 2) with 3 by lra. rewrite psi_3, psi_2. lra.
  - unfold joint_of, joint_bound, shape, rate, gamma_cross, sumf. cbn [h_ord h_sticks h_gamma g_shape g_rate nth length seq map rsum firstn].
    unfold e_ln_rest. cbn [fst snd]. replace (1 + 2) with 3 by lra. rewrite psi_3, psi_2.
    replace (2 / (3/2)) with (4/3) by lra. rewrite ln_1.
    assert (L2 : ln (3/2) < 1/2).
    { apply Rlt_le_trans with (ln (exp (1/2))); [|rewrite ln_exp; lra].
      apply ln_increasing; [lra|]. assert (Y := exp_ineq1 (1/2) ltac:(lra)). lra. }
    set (l := ln (3/2)) in *. lra.
Qed.

Example C166_ex :
  (* one stick, one observation of its component *)
  hyper_update (fun _ => [0%nat]) 1 {| g_shape := [1]; g_rate := [1] |}
    {| h_ord := [0%nat]; h_sticks := [(1, 1)]; h_prior := [(1, 1)]; h_gamma := {| g_shape := [1]; g_rate := [1] |} |} [1] =
  {| h_ord := [0%nat]; h_sticks := [(2, 1)]; h_prior := [(1, 4/5)]; h_gamma := {| g_shape := [2]; g_rate := [5/2] |} |}.
Proof.
  assert (E1 : sb_update (fun _ => [0%nat]) 1 [(1, 1)] [(1, 1)] [1] = ([0%nat], [(2, 1)])).
  { unfold sb_update, transform_stats, reverse_ordering, reorder, cumsum. simpl.
    rewrite !stick_update_value. simpl. f_equal. apply f_equal2; [apply f_equal2; lra|reflexivity]. }
  unfold hyper_update. cbn [h_prior h_sticks h_gamma]. rewrite E1.
  unfold on_stickbreaking_update.
  assert (Eg : std_update gamma_nat gamma_from_nat 1 {| g_shape := [1]; g_rate := [1] |}
      {| g_shape := [1]; g_rate := [1] |} (concentration_stats [0%nat] [(2, 1)]) = {| g_shape := [2]; g_rate := [5/2] |}).
  { unfold concentration_stats, log_prob, log_v, reorder, std_update, gamma_from_nat, gamma_nat. simpl.
    replace (2 + 1) with 3 by lra. rewrite psi_3, psi_2. f_equal; (apply f_equal2; [lra|reflexivity]). }
  rewrite Eg. unfold on_concentration_update, gamma_mean. simpl. f_equal.
  apply f_equal2; [|reflexivity]. apply f_equal2; lra.
Qed.

Print Assumptions C165_full_step_is_best.
Print Assumptions C165_refuted.
Print Assumptions C166_full_step.
Print Assumptions C166_refuted.

(** Lemmas on mixtures, HMMs and phone loops. *)
From Coq Require Import Reals List Arith Bool Lia Lra FunctionalExtensionality.
From Verif Require Import Prelude Vec Gibbs Edit_Model Edit_Proofs Dec_Model Dec_Proofs
  FB_Model FB_Spec FB_Proofs Set_Model Set_Spec Set_Proofs Set_Index HMM_Model HMM_Spec.
Import ListNotations.
Local Open Scope R_scope.

(** ** Mixtures *)
Lemma mixture_log_weights_eq cf : mixture_log_weights cf = cat_logprobs cf.
Proof.
  unfold mixture_log_weights, cat_logprobs, eye. rewrite map_map. apply map_ext_in.
  intros j Hj. apply in_seq in Hj. apply dot_cat_stats_unit; auto. lia.
Qed.

Lemma tlse_exp l : l <> [] -> exp (tlse l) = rsum (map exp l).
Proof. intros H. unfold tlse. apply exp_ln. now apply rsum_exp_pos. Qed.

Lemma vadd_nonempty u v : length u = length v -> u <> [] -> vadd u v <> [].
Proof. intros H Hu. destruct u, v; try congruence; discriminate. Qed.

Lemma mixture_resps_sum llhs logw : length llhs = length logw -> llhs <> [] ->
  rsum (map exp (mixture_log_resps llhs logw)) = 1.
Proof.
  intros Hl Hne. unfold mixture_log_resps. rewrite map_map.
  pose proof (vadd_nonempty _ _ Hl Hne) as Hv. set (w := vadd llhs logw) in *.
  change (sumf (fun v => exp (v - tlse w)) w = 1).
  rewrite (sumf_ext _ (fun v => exp v * / rsum (map exp w))).
  - rewrite sumf_scal_r. change (sumf exp w) with (rsum (map exp w)). apply Rinv_r.
    pose proof (rsum_exp_pos w Hv). lra.
  - intros v _. unfold Rminus. rewrite exp_plus, exp_Ropp, tlse_exp by auto. reflexivity.
Qed.

Lemma mixture_log_resps_length llhs logw : length llhs = length logw ->
  length (mixture_log_resps llhs logw) = length llhs.
Proof. intros. unfold mixture_log_resps. now rewrite map_length, vadd_length. Qed.

Lemma mixture_log_resps_nth llhs logw k : length llhs = length logw -> (k < length llhs)%nat ->
  nth k (mixture_log_resps llhs logw) 0 = nth k llhs 0 + nth k logw 0 - tlse (vadd llhs logw).
Proof.
  intros Hl Hk. unfold mixture_log_resps.
  rewrite (map_nth_lt _ _ _ 0) by (rewrite vadd_length; auto). rewrite vadd_nth by lia. reflexivity.
Qed.

Lemma mixture_value llhs logw : length llhs = length logw -> llhs <> [] ->
  rsum (map2 Rmult llhs (map exp (mixture_log_resps llhs logw))) -
  local_kl (mixture_log_resps llhs logw) logw = tlse (vadd llhs logw).
Proof.
  intros Hl Hne. unfold local_kl.
  pose proof (mixture_log_resps_length llhs logw Hl) as Hr.
  rewrite (rsum_map2_index _ _ _ 0 0) by (rewrite map_length; auto).
  rewrite (rsum_map2_index _ (mixture_log_resps llhs logw) logw 0 0) by congruence.
  rewrite Hr, <- sumf_minus.
  rewrite (sumf_ext _ (fun k => exp (nth k (mixture_log_resps llhs logw) 0) * tlse (vadd llhs logw))).
  - rewrite sumf_scal_r.
    replace (sumf (fun k => exp (nth k (mixture_log_resps llhs logw) 0)) (seq 0 (length llhs)))
      with (rsum (map exp (mixture_log_resps llhs logw))).
    + rewrite mixture_resps_sum by auto. ring.
    + rewrite rsum_nth, map_length, Hr. apply sumf_ext. intros k Hk. apply in_seq in Hk.
      rewrite (map_nth_lt _ _ _ 0) by lia. reflexivity.
  - intros k Hk. apply in_seq in Hk. rewrite (map_nth_lt _ _ _ 0) by lia.
    rewrite mixture_log_resps_nth by (auto; lia). ring.
Qed.

(** Variational optimality. *)
Lemma mixture_optimal llhs logw r : length llhs = length logw -> length r = length llhs ->
  llhs <> [] -> is_dist r ->
  rsum (map2 Rmult llhs r) - rsum (map2 (fun p w => p * (ln p - w)) r logw) <=
  tlse (vadd llhs logw).
Proof.
  intros Hl Hr Hne [Hp Hs].
  set (Z := tlse (vadd llhs logw)).
  pose proof (gibbs (fun k => nth k r 0) (fun k => exp (nth k llhs 0 + nth k logw 0 - Z))
                (seq 0 (length llhs))) as G.
  assert (HP : forall k, In k (seq 0 (length llhs)) -> 0 <= nth k r 0).
  { intros k Hk. apply in_seq in Hk. apply Hp. apply nth_In. lia. }
  specialize (G HP ltac:(intros; apply exp_pos)).
  assert (Hq : sumf (fun k => exp (nth k llhs 0 + nth k logw 0 - Z)) (seq 0 (length llhs)) = 1).
  { rewrite <- (mixture_resps_sum llhs logw) by auto. rewrite rsum_nth, map_length.
    rewrite mixture_log_resps_length by auto. apply sumf_ext. intros k Hk. apply in_seq in Hk.
    rewrite (map_nth_lt _ _ _ 0) by (rewrite mixture_log_resps_length; auto; lia).
    rewrite mixture_log_resps_nth by (auto; lia). reflexivity. }
  assert (Hrs : sumf (fun k => nth k r 0) (seq 0 (length llhs)) = 1).
  { rewrite <- Hs, (rsum_nth r), Hr. reflexivity. }
  rewrite Hq, Hrs in G.
  rewrite (rsum_map2_index _ _ _ 0 0) by auto.
  rewrite (rsum_map2_index _ r logw 0 0) by congruence. rewrite Hr, <- sumf_minus.
  rewrite (sumf_ext _ (fun k => nth k r 0 * (ln (exp (nth k llhs 0 + nth k logw 0 - Z)) - ln (nth k r 0))
                       + nth k r 0 * Z)).
  - rewrite sumf_plus, sumf_scal_r, Hrs. lra.
  - intros k _. rewrite ln_exp. ring.
Qed.

(** A mixture over a model set is the emission EMix. *)
Lemma mixture_as_emission p cf m x : wf m -> length cf = size m -> (0 < size m)%nat ->
  mixture_ellh (ellh m x) (mixture_log_weights cf) None =
  Ok (em_llh x (EMix p 0 cf (denote m)), em_post x cf (denote m)).
Proof.
  intros Hw Hl Hp. unfold mixture_ellh. rewrite mixture_log_weights_eq.
  assert (Hlen : length (ellh m x) = length (cat_logprobs cf))
    by (rewrite ellh_length, cat_logprobs_length; auto).
  assert (Hne : ellh m x <> []).
  { intros E. apply (f_equal (@length _)) in E. rewrite ellh_length in E. simpl in E. lia. }
  rewrite mixture_value by auto. cbn [em_llh].
  assert (Hj : map exp (vadd (ellh m x) (cat_logprobs cf)) = joint_probs cf (map (em_llh x) (denote m))).
  { unfold joint_probs, vadd. rewrite map_map2, map2_swap, ellh_denote by auto.
    apply map2_ext. intros a b _. f_equal. ring. }
  f_equal. f_equal.
  - unfold tlse. now rewrite Hj.
  - unfold mixture_log_resps, em_post. rewrite <- Hj, !map_map. apply map_ext. intros v.
    unfold Rminus. rewrite exp_plus, exp_Ropp, tlse_exp by (apply vadd_nonempty; auto). reflexivity.
Qed.

Lemma mixture_accumulate_mix p cf m stats : wf m -> length cf = size m -> (0 < size m)%nat ->
  mixture_accumulate p m stats (map (fun x => em_post x cf (denote m)) stats) =
  accumulate (Mix p [cf] m) stats (map (fun _ => [1]) stats).
Proof.
  intros Hw Hl Hp. cbn [accumulate]. unfold ncpm. cbn [length]. rewrite Nat.div_1_r.
  assert (HJ : forall x, joint_resps [cf] m x [1] = [em_post x cf (denote m)]).
  { intros x.
    assert (H0 : nth 0 (joint_resps [cf] m x [1]) [] = vscale 1 (em_post x cf (subs_of m (size m) 0))).
    { apply (joint_resps_nth [cf] m x [1] 0 (size m)); auto; simpl; lia. }
    assert (HL : length (joint_resps [cf] m x [1]) = 1%nat) by now apply joint_resps_length.
    destruct (joint_resps [cf] m x [1]) as [|a [|]]; try discriminate HL. simpl in H0. subst a. f_equal.
    assert (Hs : subs_of m (size m) 0 = denote m).
    { unfold subs_of. rewrite <- denote_length. cbn [Nat.mul Nat.add].
      rewrite (map_nth_seq (fun e => e) (denote m) e0). apply map_id. }
    rewrite Hs. unfold vscale. rewrite <- (map_id (em_post x cf (denote m))) at 2.
    apply map_ext. intros; ring. }
  rewrite map2_map_r.
  rewrite (map2_ext _ (fun x _ => [em_post x cf (denote m)])) by (intros; apply HJ).
  assert (E : map2 (fun x (_ : list R) => [em_post x cf (denote m)]) stats stats =
              map (fun x => [em_post x cf (denote m)]) stats).
  { clear. induction stats; simpl; congruence. }
  rewrite E. clear E. unfold mixture_accumulate. cbn [seq map]. rewrite !map_map. cbn [map nth concat].
  f_equal. f_equal. apply map_ext. intros x. now rewrite app_nil_r.
Qed.

(** ** Paths *)
Lemma nth_path_lt n len p t : In p (paths n len) -> (t < len)%nat -> (nth t p 0 < n)%nat.
Proof.
  intros Hp Ht. apply paths_in in Hp. destruct Hp as [Hl Hf]. rewrite Forall_forall in Hf.
  apply Hf. apply nth_In. lia.
Qed.

Lemma visits_eqb t j p : (t < length p)%nat -> visits t j p = Nat.eqb (nth t p 0%nat) j.
Proof. intros H. unfold visits. now rewrite (nth_error_nth' p 0%nat H). Qed.

Lemma expect_visit g ls t j : (t < length ls)%nat ->
  visit_mass g ls t j / evidence g ls =
  expect g ls (fun p => if Nat.eqb (nth t p 0%nat) j then 1 else 0).
Proof.
  intros Ht. rewrite visit_mass_eq. unfold path_mass, expect, Rdiv. rewrite <- sumf_scal_r.
  apply sumf_ext. intros p Hp. rewrite visits_eqb by (apply paths_length in Hp; lia).
  unfold ind. ring.
Qed.

Lemma expect_pair g ls t i j : (S t < length ls)%nat ->
  pair_mass g ls t i j / evidence g ls =
  expect g ls (fun p => if Nat.eqb (nth t p 0%nat) i && Nat.eqb (nth (S t) p 0%nat) j then 1 else 0).
Proof.
  intros Ht. rewrite pair_mass_eq. unfold path_mass, expect, Rdiv. rewrite <- sumf_scal_r.
  apply sumf_ext. intros p Hp. rewrite !visits_eqb by (apply paths_length in Hp; lia).
  unfold ind. ring.
Qed.

Lemma expect_plus g ls f h : expect g ls (fun p => f p + h p) = expect g ls f + expect g ls h.
Proof. unfold expect. rewrite <- sumf_plus. apply sumf_ext. intros; ring. Qed.

Lemma expect_scal g ls c f : expect g ls (fun p => c * f p) = c * expect g ls f.
Proof. unfold expect. rewrite <- sumf_scal_l. apply sumf_ext. intros; ring. Qed.

Lemma expect_sumf {A} g ls (f : A -> list nat -> R) l :
  expect g ls (fun p => sumf (fun a => f a p) l) = sumf (fun a => expect g ls (f a)) l.
Proof.
  unfold expect. rewrite (sumf_swap (fun a p => path_prob g ls p / evidence g ls * f a p)).
  apply sumf_ext. intros p _. now rewrite sumf_scal_l.
Qed.

Lemma expect_ext g ls f h : (forall p, In p (paths (cg_n g) (length ls)) -> f p = h p) ->
  expect g ls f = expect g ls h.
Proof. intros H. unfold expect. apply sumf_ext. intros p Hp. now rewrite H. Qed.

Lemma expect_one g ls : 0 < evidence g ls -> expect g ls (fun _ => 1) = 1.
Proof.
  intros H. unfold expect.
  rewrite (sumf_ext _ (fun p => path_prob g ls p * / evidence g ls)) by (intros; unfold Rdiv; ring).
  rewrite sumf_scal_r. fold (evidence g ls). field. lra.
Qed.

(** Sum over the states of a function of the state at time t. *)
Lemma expect_state g ls t (f : nat -> R) : (t < length ls)%nat ->
  sumf (fun j => f j * (visit_mass g ls t j / evidence g ls)) (seq 0 (cg_n g)) =
  expect g ls (fun p => f (nth t p 0%nat)).
Proof.
  intros Ht.
  rewrite (sumf_ext _ (fun j => expect g ls (fun p => f j * (if Nat.eqb (nth t p 0%nat) j then 1 else 0))))
    by (intros; rewrite expect_scal, expect_visit; auto).
  rewrite <- expect_sumf. apply expect_ext. intros p Hp.
  rewrite (sumf_seq_single _ (cg_n g) (nth t p 0%nat)).
  - rewrite Nat.eqb_refl. ring.
  - eapply nth_path_lt; eauto.
  - intros x _ Hx. destruct (Nat.eqb_spec (nth t p 0%nat) x); [congruence|ring].
Qed.

(** ** HMM likelihood computation *)
Lemma pc_llhs_ok m order scale stats : (forall o, In o order -> (o < size m)%nat) ->
  pc_llhs m order scale stats =
  Ok (map (fun x => vscale scale (map (fun k => nth k (ellh m x) 0) order)) stats).
Proof.
  intros H. unfold pc_llhs. apply mapM_ok. intros x _. rewrite dyn_ellh_ok by auto. reflexivity.
Qed.

Lemma pc_llhs_denote m order scale stats : wf m -> (forall o, In o order -> (o < size m)%nat) ->
  pc_llhs m order scale stats =
  Ok (map (fun x => map (fun k => scale * em_llh x (nth k (denote m) e0)) order) stats).
Proof.
  intros Hw H. rewrite pc_llhs_ok by auto. f_equal. apply map_ext. intros x.
  unfold vscale. rewrite map_map. apply map_ext_in. intros k Hk. f_equal.
  rewrite ellh_denote by auto. rewrite (map_nth_lt _ _ _ e0); [reflexivity|].
  rewrite denote_length. auto.
Qed.

Lemma as_rows_length M : length (as_rows M) = length M.
Proof. apply map_length. Qed.

Lemma nums_spec n p f : (forall j, (j < n)%nat -> p j = Num (f j)) ->
  nums n p = Some (map f (seq 0 n)).
Proof.
  intros H. unfold nums.
  assert (E : map p (seq 0 n) = map (fun j => Num (f j)) (seq 0 n)).
  { apply map_ext_in. intros j Hj. apply in_seq in Hj. apply H. lia. }
  rewrite E. rewrite map_map.
  replace (forallb num_ok (map (fun j => Num (f j)) (seq 0 n))) with true; [reflexivity|].
  symmetry. apply forallb_forall. intros y Hy. apply in_map_iff in Hy.
  destruct Hy as (j & <- & _). reflexivity.
Qed.

(** Value and statistics of the soft pass, over all paths. *)
Lemma frame_value_soft g llhs posts lnm t : 
  posteriors g (as_rows llhs) = Ok (posts, lnm) -> 0 < evidence g (as_rows llhs) ->
  (t < length llhs)%nat -> length (nth t llhs []) = cg_n g ->
  frame_value (cg_n g) (nth t llhs []) (nth t posts (fun _ => NaN)) =
  Some (expect g (as_rows llhs) (fun p => nth (nth t p 0%nat) (nth t llhs []) 0)).
Proof.
  intros H Hev Ht Hl. unfold frame_value.
  rewrite (nums_spec _ _ (fun j => visit_mass g (as_rows llhs) t j / evidence g (as_rows llhs))).
  2:{ intros j Hj. apply (posteriors_state g (as_rows llhs) posts lnm); auto.
      now rewrite as_rows_length. }
  f_equal. rewrite (rsum_map2_index _ _ _ 0 0) by (rewrite map_length, seq_length; auto).
  rewrite Hl. rewrite <- (expect_state g (as_rows llhs) t (fun j => nth j (nth t llhs []) 0))
    by now rewrite as_rows_length.
  apply sumf_ext. intros j Hj. apply in_seq in Hj.
  rewrite (map_nth_lt _ _ _ 0%nat) by (rewrite seq_length; lia). rewrite seq_nth by lia. reflexivity.
Qed.

(** Log-likelihood of the frames along a path. *)
Definition path_llh (llhs : mat) (p : list nat) : R :=
  sumf (fun t => nth (nth t p 0%nat) (nth t llhs []) 0) (seq 0 (length llhs)).

Lemma tail_prob_split g llhs : forall s p, length p = length llhs ->
  tail_prob g s (as_rows llhs) p =
  tail_prob g s (repeat (fun _ => Fin 0) (length llhs)) p * exp (path_llh llhs p).
Proof.
  induction llhs as [|l llhs IH]; intros s p Hl.
  - destruct p; [|discriminate]. simpl. unfold path_llh. simpl. rewrite sumf_nil, exp_0. ring.
  - destruct p as [|j p]; [discriminate|].
    assert (E : path_llh (l :: llhs) (j :: p) = nth j l 0 + path_llh llhs p).
    { unfold path_llh. cbn [length seq]. rewrite sumf_cons. cbn [nth]. f_equal.
      rewrite <- seq_shift, sumf_map. reflexivity. }
    rewrite E, exp_plus. cbn [as_rows map length repeat tail_prob].
    fold (as_rows llhs). rewrite IH by (simpl in Hl; congruence). cbn [ex]. rewrite exp_0. ring.
Qed.

Lemma path_prob_split g llhs p : length p = length llhs ->
  path_prob g (as_rows llhs) p = prior_prob g (length llhs) p * exp (path_llh llhs p).
Proof.
  destruct llhs as [|l llhs]; intros Hl.
  - destruct p; [|discriminate]. unfold prior_prob. simpl. ring.
  - destruct p as [|j p]; [discriminate|].
    assert (E : path_llh (l :: llhs) (j :: p) = nth j l 0 + path_llh llhs p).
    { unfold path_llh. cbn [length seq]. rewrite sumf_cons. cbn [nth]. f_equal.
      rewrite <- seq_shift, sumf_map. reflexivity. }
    rewrite E, exp_plus. unfold prior_prob. cbn [as_rows map length repeat path_prob].
    fold (as_rows llhs). rewrite tail_prob_split by (simpl in Hl; congruence).
    cbn [ex]. rewrite exp_0. ring.
Qed.

Lemma tail_prob_nonneg g ls : forall s p, 0 <= tail_prob g s ls p.
Proof.
  induction ls as [|l ls IH]; intros s [|j p]; simpl; try lra.
  - apply ex_nonneg.
  - apply Rmult_le_pos; [apply Rmult_le_pos; apply ex_nonneg|apply IH].
Qed.

Lemma path_prob_nonneg g ls p : 0 <= path_prob g ls p.
Proof.
  destruct ls as [|l ls], p as [|j p]; simpl; try lra.
  apply Rmult_le_pos; [apply Rmult_le_pos; apply ex_nonneg|apply tail_prob_nonneg].
Qed.

Lemma prior_tail_le g T : substochastic g -> forall s, (s < cg_n g)%nat ->
  sumf (tail_prob g s (repeat (fun _ => Fin 0) T)) (paths (cg_n g) T) <= 1.
Proof.
  intros (_ & Ht & Hf). induction T as [|T IH]; intros s Hs.
  - simpl. unfold sumf. simpl. specialize (Hf s Hs). lra.
  - cbn [repeat paths]. rewrite sumf_flat_map.
    apply Rle_trans with (sumf (fun j => ex (cg_trans g s j)) (seq 0 (cg_n g))); [|auto].
    apply sumf_le. intros j Hj. apply in_seq in Hj. rewrite sumf_map. cbn [tail_prob ex].
    rewrite (sumf_ext _ (fun p => ex (cg_trans g s j) * tail_prob g j (repeat (fun _ => Fin 0) T) p))
      by (intros; rewrite exp_0; ring).
    rewrite sumf_scal_l. rewrite <- (Rmult_1_r (ex (cg_trans g s j))) at 2.
    apply Rmult_le_compat_l; [apply ex_nonneg|]. apply IH. lia.
Qed.

Lemma prior_le_one g T : substochastic g -> sumf (prior_prob g T) (paths (cg_n g) T) <= 1.
Proof.
  intros H. destruct T as [|T].
  - simpl. unfold sumf, prior_prob. simpl. lra.
  - cbn [paths]. rewrite sumf_flat_map. destruct H as (Hi & H).
    apply Rle_trans with (sumf (fun j => ex (cg_init g j)) (seq 0 (cg_n g))); [|auto].
    apply sumf_le. intros j Hj. apply in_seq in Hj. rewrite sumf_map.
    unfold prior_prob. cbn [repeat path_prob ex].
    rewrite (sumf_ext _ (fun p => ex (cg_init g j) * tail_prob g j (repeat (fun _ => Fin 0) T) p))
      by (intros; rewrite exp_0; ring).
    rewrite sumf_scal_l. rewrite <- (Rmult_1_r (ex (cg_init g j))) at 2.
    apply Rmult_le_compat_l; [apply ex_nonneg|]. apply prior_tail_le; [split; auto|lia].
Qed.

(** The expected log-likelihood of the frames is at least the log-evidence. *)
Lemma expected_llh_ge_evidence g llhs : substochastic g -> 0 < evidence g (as_rows llhs) ->
  ln (evidence g (as_rows llhs)) <= expect g (as_rows llhs) (path_llh llhs).
Proof.
  intros Hs Hev. set (ev := evidence g (as_rows llhs)) in *.
  set (P := paths (cg_n g) (length llhs)).
  set (q := fun p => path_prob g (as_rows llhs) p / ev).
  assert (Hq1 : sumf q P = 1).
  { unfold q, Rdiv. rewrite sumf_scal_r. unfold P. rewrite <- (as_rows_length llhs).
    fold (evidence g (as_rows llhs)). fold ev. field. lra. }
  assert (HT : forall p, In p P -> q p * (ln ev - path_llh llhs p) <= prior_prob g (length llhs) p - q p).
  { intros p Hp. pose proof (paths_length _ _ _ Hp) as Hl.
    pose proof (path_prob_split g llhs p Hl) as E.
    pose proof (path_prob_nonneg g (repeat (fun _ => Fin 0) (length llhs)) p) as Hpr.
    fold (prior_prob g (length llhs) p) in Hpr.
    destruct Hpr as [Hpr|Hpr].
    - assert (Hqp : 0 < q p).
      { unfold q. rewrite E. apply Rdiv_lt_0_compat; auto. apply Rmult_lt_0_compat; [auto|apply exp_pos]. }
      pose proof (gibbs_term (q p) (prior_prob g (length llhs) p) (Rlt_le _ _ Hqp) Hpr) as G.
      assert (El : ln (q p) = ln (prior_prob g (length llhs) p) + path_llh llhs p - ln ev).
      { unfold q. rewrite E. rewrite ln_div, ln_mult, ln_exp; auto; [apply exp_pos|].
        apply Rmult_lt_0_compat; [auto|apply exp_pos]. }
      rewrite El in G.
      replace (ln ev - path_llh llhs p)
        with (ln (prior_prob g (length llhs) p) -
              (ln (prior_prob g (length llhs) p) + path_llh llhs p - ln ev)) by ring. exact G.
    - assert (Hq0 : q p = 0) by (unfold q; rewrite E, <- Hpr; unfold Rdiv; ring).
      rewrite Hq0, <- Hpr. lra. }
  pose proof (sumf_le _ _ P HT) as G. rewrite sumf_minus, Hq1 in G.
  pose proof (prior_le_one g (length llhs) Hs) as Hpr. fold P in Hpr.
  rewrite (sumf_ext _ (fun p => q p * ln ev - q p * path_llh llhs p)) in G by (intros; ring).
  rewrite sumf_minus, sumf_scal_r, Hq1 in G.
  assert (EE : expect g (as_rows llhs) (path_llh llhs) = sumf (fun p => q p * path_llh llhs p) P).
  { unfold expect. rewrite as_rows_length. reflexivity. }
  rewrite EE. lra.
Qed.

(** ** Shift of all the likelihoods of a frame *)
Lemma path_prob_shift g llhs llhs' cs :
  length llhs' = length llhs -> length cs = length llhs ->
  (forall t j, (t < length llhs)%nat -> (j < cg_n g)%nat ->
     nth j (nth t llhs' []) 0 = nth j (nth t llhs []) 0 + nth t cs 0) ->
  forall p, In p (paths (cg_n g) (length llhs)) ->
  path_prob g (as_rows llhs') p = exp (rsum cs) * path_prob g (as_rows llhs) p.
Proof.
  intros Hl Hc H p Hp. pose proof (paths_length _ _ _ Hp) as Hlp.
  rewrite !path_prob_split by congruence. rewrite Hl.
  assert (E : path_llh llhs' p = path_llh llhs p + rsum cs).
  { unfold path_llh. rewrite Hl, (rsum_nth cs), Hc, <- sumf_plus. apply sumf_ext.
    intros t Ht. apply in_seq in Ht. apply H; [lia|]. eapply nth_path_lt; eauto. lia. }
  rewrite E, exp_plus. ring.
Qed.

Lemma posteriors_shift g llhs llhs' cs posts posts' lnm lnm' :
  length llhs' = length llhs -> length cs = length llhs ->
  (forall t j, (t < length llhs)%nat -> (j < cg_n g)%nat ->
     nth j (nth t llhs' []) 0 = nth j (nth t llhs []) 0 + nth t cs 0) ->
  posteriors g (as_rows llhs) = Ok (posts, lnm) ->
  posteriors g (as_rows llhs') = Ok (posts', lnm') ->
  forall t j d, (t < length llhs)%nat -> (j < cg_n g)%nat ->
  nth t posts' d j = nth t posts d j.
Proof.
  intros Hl Hc H H1 H2 t j d Ht Hj.
  assert (Hev : evidence g (as_rows llhs') = exp (rsum cs) * evidence g (as_rows llhs)).
  { unfold evidence. rewrite !as_rows_length, Hl, <- sumf_scal_l. apply sumf_ext.
    intros p Hp. now apply path_prob_shift. }
  assert (Hv : visit_mass g (as_rows llhs') t j = exp (rsum cs) * visit_mass g (as_rows llhs) t j).
  { unfold visit_mass. rewrite !as_rows_length, Hl, <- sumf_scal_l. apply sumf_ext.
    intros p Hp. apply filter_In in Hp. apply path_prob_shift; tauto. }
  pose proof (exp_pos (rsum cs)) as He.
  destruct (evidence_nonneg g (as_rows llhs)) as [Hp|Hz].
  - rewrite (posteriors_state g (as_rows llhs) posts lnm t j d) by (auto; now rewrite as_rows_length).
    rewrite (posteriors_state g (as_rows llhs') posts' lnm' t j d); auto.
    + f_equal. rewrite Hev, Hv. field. lra.
    + rewrite Hev. now apply Rmult_lt_0_compat.
    + rewrite as_rows_length. lia.
  - rewrite (posteriors_impossible g (as_rows llhs) posts lnm t j d) by (auto; now rewrite as_rows_length).
    apply (posteriors_impossible g (as_rows llhs') posts' lnm'); auto.
    + rewrite Hev, <- Hz. ring.
    + rewrite as_rows_length. lia.
Qed.

(** Linear sets: scaling the statistics scales the likelihoods up to a constant. *)
Lemma ellh_scaled c m s x : linear_const c m ->
  ellh m (vscale s x) = map (fun v => s * v + (1 - s) * c) (ellh m x).
Proof.
  induction m as [p d nf c'|l IH|m r IH|p cf m IH] using mset_rect'; intros H.
  - simpl in H. subst c'. cbn [ellh]. unfold lin. rewrite !map_map. apply map_ext. intros w.
    rewrite dot_vscale_l. ring.
  - induction IH as [|m t Hm Ht IHt]; [reflexivity|]. simpl in H |- *. destruct H as [H1 H2].
    rewrite map_app, Hm by auto. f_equal. now apply IHt.
  - simpl in H |- *. rewrite IH by auto.
    induction r as [|r IHr]; simpl; [reflexivity|]. rewrite map_app, IHr. reflexivity.
  - destruct H.
Qed.

(** ** Phone loop *)
Lemma row_set_other r sv j : ~ In j (map fst sv) -> row_set r sv j = r j.
Proof.
  unfold row_set. revert r; induction sv as [|[s v] sv IH]; intros r H; [reflexivity|].
  simpl in *. rewrite IH by tauto. destruct (Nat.eqb_spec j s); [exfalso; apply H; left; congruence|reflexivity].
Qed.

Lemma row_set_in r sv j v : NoDup (map fst sv) -> In (j, v) sv -> row_set r sv j = v.
Proof.
  unfold row_set. revert r; induction sv as [|[s w] sv IH]; intros r Hn H; [destruct H|].
  simpl in *. inversion_clear Hn. destruct H as [E|H]; [|now apply IH].
  injection E as -> ->.
  change (row_set (fun j0 => if Nat.eqb j0 j then v else r j0) sv j = v).
  rewrite row_set_other by auto. now rewrite Nat.eqb_refl.
Qed.

Lemma map_fst_combine {A B} (l : list A) (m : list B) : length l = length m ->
  map fst (combine l m) = l.
Proof. revert m; induction l; intros [|]; simpl; intros; try discriminate; auto. f_equal. auto. Qed.

Definition ew_ok (starts : list nat) (ew : nat * list R) : Prop := length (snd ew) = length starts.

Lemma update_other starts trans ew i j : ew_ok starts ew ->
  i <> fst ew \/ ~ In j starts -> update_end starts trans ew i j = trans i j.
Proof.
  destruct ew as [e w]. unfold ew_ok. simpl. intros Hl [H|H].
  - destruct (Nat.eqb_spec i e); [contradiction|reflexivity].
  - destruct (Nat.eqb_spec i e); [subst|reflexivity]. apply row_set_other.
    rewrite map_fst_combine; auto. now rewrite map_length.
Qed.

Lemma update_entry starts trans e w k : NoDup starts -> length w = length starts ->
  (k < length starts)%nat ->
  update_end starts trans (e, w) e (nth k starts 0%nat) =
  ladd (lnp (1 - ex (trans e e))) (Fin (nth k w 0)).
Proof.
  intros Hn Hl Hk. simpl. rewrite Nat.eqb_refl. apply row_set_in.
  - now rewrite map_fst_combine by (rewrite map_length; auto).
  - rewrite (combine_index starts _ 0%nat NInf) by (rewrite map_length; auto).
    apply in_map_iff. exists k. split; [|apply in_seq; lia]. f_equal.
    rewrite (map_nth_lt _ _ _ 0) by lia. reflexivity.
Qed.

Lemma fold_update_other starts ews : Forall (ew_ok starts) ews -> forall trans i j,
  (~ In i (map fst ews)) \/ ~ In j starts ->
  fold_left (update_end starts) ews trans i j = trans i j.
Proof.
  induction 1 as [|ew ews Hew Hf IH]; intros trans i j H; [reflexivity|].
  simpl in *. rewrite IH by tauto. apply update_other; auto.
  destruct H as [H|H]; [left; intros E; apply H; now left|now right].
Qed.

Lemma fold_update_entry starts ews : NoDup starts -> Forall (ew_ok starts) ews ->
  NoDup (map fst ews) -> (forall ew, In ew ews -> ~ In (fst ew) starts) ->
  forall trans e w k, In (e, w) ews -> (k < length starts)%nat ->
  fold_left (update_end starts) ews trans e (nth k starts 0%nat) =
  ladd (lnp (1 - ex (trans e e))) (Fin (nth k w 0)).
Proof.
  intros Hs Hf. induction Hf as [|[e' w'] ews Hew Hf IH]; intros Hn Hd trans e w k Hin Hk; [destruct Hin|].
  simpl in Hn. inversion_clear Hn. cbn [fold_left]. destruct Hin as [E|Hin].
  - injection E as -> ->. rewrite fold_update_other by auto. now apply update_entry.
  - rewrite (IH H0 ltac:(intros; apply Hd; now right) _ e w k) by auto.
    rewrite update_other; auto. left. simpl. intros ->. apply H.
    change e' with (fst (e', w)). now apply in_map.
Qed.

Lemma ex_lnp x : 0 <= x -> ex (lnp x) = x.
Proof.
  intros H. unfold lnp. destruct (Rlt_dec 0 x); simpl; [now apply exp_ln|lra].
Qed.

(** Row sums after an update. *)
Lemma row_sum_split (f : nat -> R) n e starts : NoDup starts -> ~ In e starts -> (e < n)%nat ->
  (forall s, In s starts -> (s < n)%nat) ->
  (forall j, (j < n)%nat -> j <> e -> ~ In j starts -> f j = 0) ->
  sumf f (seq 0 n) = f e + sumf f starts.
Proof.
  intros Hn He Hen Hs Hz.
  rewrite (sumf_ext _ (fun j => (if Nat.eqb j e then f e else 0) +
             sumf (fun s => if Nat.eqb j s then f s else 0) starts)).
  - rewrite sumf_plus. f_equal.
    + rewrite (sumf_seq_single _ n e); [now rewrite Nat.eqb_refl|auto|].
      intros x _ Hx. destruct (Nat.eqb_spec x e); [congruence|reflexivity].
    + rewrite sumf_swap. apply sumf_ext. intros s Hin.
      rewrite (sumf_seq_single _ n s); [now rewrite Nat.eqb_refl|auto|].
      intros x _ Hx. destruct (Nat.eqb_spec x s); [congruence|reflexivity].
  - intros j Hj. apply in_seq in Hj. destruct (in_dec Nat.eq_dec j starts) as [Hi|Hi].
    + rewrite (sumf_single _ starts j); auto.
      * rewrite Nat.eqb_refl. destruct (Nat.eqb_spec j e); [subst; contradiction|lra].
      * intros x _ Hx. destruct (Nat.eqb_spec j x); [congruence|reflexivity].
    + rewrite (sumf_zero _ starts).
      * destruct (Nat.eqb_spec j e); [subst; lra|]. rewrite Hz by (auto; lia). lra.
      * intros s Hin. destruct (Nat.eqb_spec j s); [subst; contradiction|reflexivity].
Qed.

(** Phone counts. *)
Lemma existsb_ends ends x : NoDup ends ->
  (if existsb (Nat.eqb x) ends then 1 else 0) = sumf (fun e => if Nat.eqb x e then 1 else 0) ends.
Proof.
  intros Hn. destruct (existsb (Nat.eqb x) ends) eqn:E.
  - apply existsb_exists in E. destruct E as (e & He & Ee). apply Nat.eqb_eq in Ee. subst e.
    rewrite (sumf_single _ ends x); auto; [now rewrite Nat.eqb_refl|].
    intros y _ Hy. destruct (Nat.eqb_spec x y); [congruence|reflexivity].
  - symmetry. apply sumf_zero. intros e He. destruct (Nat.eqb_spec x e); [subst|reflexivity].
    assert (existsb (Nat.eqb e) ends = true) by (apply existsb_exists; exists e; split; [auto|apply Nat.eqb_refl]).
    congruence.
Qed.

Lemma trans_sum g ls e s : 0 < evidence g ls -> (e < cg_n g)%nat -> (s < cg_n g)%nat ->
  sumf (fun xi => num_val (xi e s)) (trans_posteriors g ls) =
  expect g ls (bigram_count e s).
Proof.
  intros Hev He Hs. unfold bigram_count.
  rewrite (expect_ext g ls _ (fun p => sumf (fun t => if Nat.eqb (nth t p 0%nat) e && Nat.eqb (nth (S t) p 0%nat) s then 1 else 0)
     (seq 0 (pred (length ls))))).
  2:{ intros p Hp. apply paths_length in Hp. now rewrite Hp. }
  rewrite expect_sumf. unfold sumf at 1.
  rewrite <- (map_nth_seq (fun xi => num_val (xi e s)) (trans_posteriors g ls) (fun _ _ => NaN)).
  rewrite trans_posteriors_length. apply (sumf_ext (fun k => num_val (nth k (trans_posteriors g ls) (fun _ _ => NaN) e s))).
  intros t Ht. apply in_seq in Ht. rewrite trans_posteriors_pair by (auto; lia). cbn [num_val].
  apply expect_pair. lia.
Qed.

Lemma phone_counts_expected g ls posts lnm starts ends k :
  posteriors g ls = Ok (posts, lnm) -> 0 < evidence g ls -> NoDup ends ->
  (forall e, In e ends -> (e < cg_n g)%nat) -> (forall s, In s starts -> (s < cg_n g)%nat) ->
  (k < length starts)%nat ->
  nth k (phone_counts starts ends (trans_posteriors g ls) (hd (fun _ => NaN) posts)) 0 =
  expect g ls (phone_starts ends (nth k starts 0%nat)).
Proof.
  intros H Hev Hn He Hs Hk. unfold phone_counts.
  rewrite (map_nth_lt _ _ _ 0%nat) by auto. set (s := nth k starts 0%nat).
  assert (Hsn : (s < cg_n g)%nat) by (apply Hs; now apply nth_In).
  assert (Hne : (0 < length ls)%nat) by (destruct ls; [discriminate|simpl; lia]).
  unfold phone_starts. rewrite expect_plus. rewrite Rplus_comm. f_equal.
  - assert (E : hd (fun _ => NaN) posts = nth 0 posts (fun _ => NaN)) by (destruct posts; reflexivity).
    rewrite E, (posteriors_state g ls posts lnm) by auto. cbn [num_val]. now apply expect_visit.
  - rewrite (sumf_ext _ (fun e => expect g ls (bigram_count e s))) by (intros; apply trans_sum; auto).
    rewrite <- (expect_sumf g ls (fun e p => bigram_count e s p)). apply expect_ext. intros p Hp.
    unfold bigram_count. rewrite sumf_swap. apply sumf_ext. intros t _.
    destruct (Nat.eqb (nth (S t) p 0%nat) s).
    + rewrite andb_true_r, existsb_ends by auto. apply sumf_ext. intros; now rewrite andb_true_r.
    + rewrite andb_false_r. apply sumf_zero. intros; now rewrite andb_false_r.
Qed.

(** ** Soft training pass *)
Lemma as_rows_frames scale (es : list em) stats :
  as_rows (map (fun x => map (fun e => scale * em_llh x e) es) stats) = frames scale es stats.
Proof.
  unfold as_rows, frames. rewrite map_map. apply map_ext. intros x.
  apply functional_extensionality. intros j. f_equal.
  destruct (Nat.lt_ge_cases j (length es)) as [H|H].
  - now rewrite (map_nth_lt _ _ _ e0).
  - rewrite !nth_overflow by (rewrite ?map_length; auto). simpl. unfold dot, vmul.
    destruct x; simpl; unfold rsum; simpl; ring.
Qed.

Lemma pc_llhs_reorder m order scale stats : wf m -> (forall o, In o order -> (o < size m)%nat) ->
  pc_llhs m order scale stats =
  Ok (map (fun x => map (fun e => scale * em_llh x e) (reorder (denote m) order)) stats).
Proof.
  intros Hw H. rewrite pc_llhs_denote by auto. f_equal. apply map_ext. intros x.
  unfold reorder. now rewrite map_map.
Qed.

Lemma frames_length scale es stats : length (frames scale es stats) = length stats.
Proof. apply map_length. Qed.

Lemma em_acc_scal q x i e r : em_acc q x i e r = r * em_acc q x i e 1.
Proof.
  revert r; induction e as [p k nf c|p k cf subs IH] using em_rect'; intros r; simpl.
  - destruct (_ && _); ring.
  - assert (E : rsum (map2 (fun pr f => f (r * pr)) (em_post x cf subs) (map (em_acc q x i) subs)) =
      r * rsum (map2 (fun pr f => f (1 * pr)) (em_post x cf subs) (map (em_acc q x i) subs))).
    { rewrite <- rsum_vscale. f_equal. unfold vscale. rewrite map_map2, !map2_map_r.
      apply map2_ext. intros pr e He. apply in_combine_r in He. rewrite Forall_forall in IH.
      rewrite (IH e He (r * pr)), (IH e He (1 * pr)). ring. }
    rewrite E. destruct (_ && _); ring.
Qed.

(** The responsibilities of the soft pass. *)
Definition soft_resps (g : cgraph) (ls : list row) : mat :=
  map (fun t => map (fun j => visit_mass g ls t j / evidence g ls) (seq 0 (cg_n g))) (seq 0 (length ls)).

Lemma map2_combine {A B C} (f : A -> B -> C) l m :
  map2 f l m = map (fun ab => f (fst ab) (snd ab)) (combine l m).
Proof. revert m; induction l; intros [|]; simpl; auto. f_equal. auto. Qed.

Lemma map_seq_nth {A B} (f : A -> B) (l : list A) d :
  map f l = map (fun i => f (nth i l d)) (seq 0 (length l)).
Proof. symmetry. apply map_nth_seq. Qed.

Lemma all_some_map {A B} (f : A -> B) l : all_some (map (fun a => Some (f a)) l) = Some (map f l).
Proof. induction l as [|a l IH]; simpl; [reflexivity|]. now rewrite IH. Qed.

Lemma soft_nums g ls posts lnm : posteriors g ls = Ok (posts, lnm) -> 0 < evidence g ls ->
  length posts = length ls ->
  all_some (map (nums (cg_n g)) posts) = Some (soft_resps g ls).
Proof.
  intros H Hev Hl. rewrite (map_seq_nth _ posts (fun _ => NaN)), Hl. unfold soft_resps.
  etransitivity; [|apply (all_some_map
    (fun t => map (fun j => visit_mass g ls t j / evidence g ls) (seq 0 (cg_n g))))].
  f_equal. apply map_ext_in. intros t Ht. apply in_seq in Ht.
  apply nums_spec. intros j Hj. apply (posteriors_state g ls posts lnm); auto. lia.
Qed.

Section Soft.
  Variables (amax : nat -> (nat -> lp) -> nat) (m : mset) (g : cgraph) (order : list nat)
    (scale : R) (stats : mat).
  Hypothesis Hw : wf m.
  Hypothesis Ho : forall o, In o order -> (o < size m)%nat.
  Hypothesis Hn : length order = cg_n g.
  Let es := reorder (denote m) order.
  Let ls := frames scale es stats.
  Let llhs : mat := map (fun x => map (fun e => scale * em_llh x e) es) stats.

  Lemma es_length : length es = cg_n g.
  Proof. unfold es, reorder. rewrite map_length. exact Hn. Qed.

  Lemma llhs_rows : as_rows llhs = ls.
  Proof. apply as_rows_frames. Qed.

  Lemma hmm_ellh_soft own v c :
    hmm_ellh amax m g order own Soft scale stats = Ok (v, c) ->
    exists posts lnm, posteriors g ls = Ok (posts, lnm) /\ length posts = length stats /\
      v = map2 (frame_value (cg_n g)) llhs posts /\
      c = {| c_resps := posts; c_trans := if own then Some (trans_posteriors g ls) else None;
             c_scale := scale |}.
  Proof.
    unfold hmm_ellh. rewrite pc_llhs_reorder by auto. fold es. fold llhs. cbn [bindr].
    unfold inference. rewrite llhs_rows. intros H.
    assert (Hne : ls <> []) by (intros E; rewrite E in H; discriminate).
    destruct (posteriors_ok g ls Hne) as (posts & lnm & Hp & Hl). rewrite Hp in H. cbn [bindr fst snd] in H.
    exists posts, lnm. split; auto. split; [rewrite Hl; apply frames_length|].
    injection H as <- <-. split; reflexivity.
  Qed.

  Lemma soft_value own v c : 0 < evidence g ls ->
    hmm_ellh amax m g order own Soft scale stats = Ok (v, c) ->
    v = map (fun t => Some (expect g ls (fun p => scale * em_llh (nth t stats []) (nth (nth t p 0%nat) es e0))))
          (seq 0 (length stats)).
  Proof.
    intros Hev H. apply hmm_ellh_soft in H. destruct H as (posts & lnm & Hp & Hl & -> & _).
    assert (Hll : length llhs = length stats) by apply map_length.
    rewrite map2_combine. rewrite (combine_index llhs posts [] (fun _ => NaN)) by congruence.
    rewrite map_map, Hll. apply map_ext_in. intros t Ht. apply in_seq in Ht. cbn [fst snd].
    assert (Hlt : nth t llhs [] = map (fun e => scale * em_llh (nth t stats []) e) es).
    { unfold llhs. rewrite (map_nth_lt _ _ _ []) by lia. reflexivity. }
    rewrite (frame_value_soft g llhs posts lnm t).
    - f_equal. rewrite llhs_rows. apply expect_ext. intros p Hpp. rewrite Hlt.
      rewrite (map_nth_lt _ _ _ e0); [reflexivity|]. rewrite es_length.
      eapply nth_path_lt; eauto. unfold ls. rewrite frames_length. lia.
    - now rewrite llhs_rows.
    - now rewrite llhs_rows.
    - lia.
    - rewrite Hlt, map_length. apply es_length.
  Qed.

  Lemma soft_accumulate own v c : 0 < evidence g ls ->
    hmm_ellh amax m g order own Soft scale stats = Ok (v, c) ->
    hmm_accumulate m (cg_n g) order c stats =
    Some (dyn_accumulate m order stats (map (vscale scale) (soft_resps g ls))).
  Proof.
    intros Hev H. apply hmm_ellh_soft in H. destruct H as (posts & lnm & Hp & Hl & _ & ->).
    unfold hmm_accumulate. cbn [c_resps c_scale].
    rewrite (soft_nums g ls posts lnm); auto. unfold ls. rewrite frames_length. exact Hl.
  Qed.

  Lemma soft_acc_total q i :
    acc_total q i es stats (map (vscale scale) (soft_resps g ls)) =
    scale * expect g ls (path_stats q i es stats).
  Proof.
    unfold acc_total.
    assert (Hls : length ls = length stats) by apply frames_length.
    rewrite (rsum_map2_index _ _ _ [] []).
    2:{ unfold soft_resps. rewrite !map_length, seq_length. congruence. }
    unfold path_stats. rewrite expect_sumf, <- sumf_scal_l. apply sumf_ext. intros t Ht.
    apply in_seq in Ht.
    assert (Hr : nth t (map (vscale scale) (soft_resps g ls)) [] =
                 map (fun j => scale * (visit_mass g ls t j / evidence g ls)) (seq 0 (cg_n g))).
    { unfold soft_resps. rewrite map_map.
      rewrite (map_nth_lt _ _ _ 0%nat) by (rewrite seq_length; lia).
      rewrite seq_nth by lia. unfold vscale. now rewrite map_map. }
    rewrite Hr.
    rewrite (rsum_map2_index _ _ _ e0 0) by (rewrite map_length, seq_length; apply es_length).
    rewrite es_length.
    rewrite (sumf_ext _ (fun j => scale * (em_acc q (nth t stats []) i (nth j es e0) 1 *
        (visit_mass g ls t j / evidence g ls)))).
    - rewrite sumf_scal_l. f_equal.
      apply (expect_state g ls t (fun j => em_acc q (nth t stats []) i (nth j es e0) 1)). lia.
    - intros j Hj. apply in_seq in Hj. rewrite em_acc_scal.
      rewrite (map_nth_lt _ _ _ 0%nat) by (rewrite seq_length; lia). rewrite seq_nth by lia.
      simpl. ring.
  Qed.
End Soft.

(** Value = log-evidence + divergence of the path posterior from the prior. *)
Lemma path_prob_frames g scale es stats p : In p (paths (cg_n g) (length stats)) ->
  length es = cg_n g ->
  path_prob g (frames scale es stats) p =
  prior_prob g (length stats) p * exp (path_loglik scale es stats p).
Proof.
  intros Hp Hl. rewrite <- as_rows_frames. pose proof (paths_length _ _ _ Hp) as Hpl.
  rewrite path_prob_split by (rewrite map_length; auto). rewrite map_length. f_equal. f_equal.
  unfold path_llh, path_loglik. rewrite map_length. apply sumf_ext. intros t Ht. apply in_seq in Ht.
  rewrite (map_nth_lt _ _ _ []) by lia. rewrite (map_nth_lt _ _ _ e0); [reflexivity|].
  rewrite Hl. eapply nth_path_lt; eauto. lia.
Qed.

Lemma value_decomposition g scale es stats : length es = cg_n g ->
  0 < evidence g (frames scale es stats) ->
  expect g (frames scale es stats) (path_loglik scale es stats) =
  ln (evidence g (frames scale es stats)) + path_kl g (frames scale es stats).
Proof.
  intros Hl Hev. set (ls := frames scale es stats) in *.
  assert (E : ln (evidence g ls) = expect g ls (fun _ => ln (evidence g ls))).
  { rewrite (expect_ext g ls _ (fun _ => ln (evidence g ls) * 1)) by (intros; ring).
    rewrite expect_scal, expect_one by auto. ring. }
  rewrite E. unfold path_kl. unfold expect at 1 2. rewrite <- sumf_plus. apply sumf_ext.
  intros p Hp. assert (Hls : length ls = length stats) by apply frames_length.
  rewrite Hls in Hp |- *. fold (path_post g ls p).
  assert (Hpp : path_post g ls p = prior_prob g (length stats) p * exp (path_loglik scale es stats p) / evidence g ls).
  { unfold path_post. f_equal. now apply path_prob_frames. }
  destruct (path_prob_nonneg g (repeat (fun _ => Fin 0) (length stats)) p) as [H|H];
    fold (prior_prob g (length stats) p) in H.
  - assert (HL : ln (path_post g ls p) =
       ln (prior_prob g (length stats) p) + path_loglik scale es stats p - ln (evidence g ls)).
    { rewrite Hpp, ln_div, ln_mult, ln_exp; auto; [apply exp_pos|].
      apply Rmult_lt_0_compat; [auto|apply exp_pos]. }
    rewrite HL. ring.
  - assert (H0 : path_post g ls p = 0) by (rewrite Hpp, <- H; unfold Rdiv; ring).
    rewrite H0. ring.
Qed.

Lemma path_kl_nonneg g scale es stats : length es = cg_n g -> substochastic g ->
  0 < evidence g (frames scale es stats) -> 0 <= path_kl g (frames scale es stats).
Proof.
  intros Hl Hs Hev. pose proof (value_decomposition g scale es stats Hl Hev) as E.
  rewrite <- (as_rows_frames scale es stats) in Hev |- * .
  pose proof (expected_llh_ge_evidence g _ Hs Hev) as H.
  rewrite as_rows_frames in H |- *.
  assert (EE : expect g (frames scale es stats)
      (path_llh (map (fun x => map (fun e => scale * em_llh x e) es) stats)) =
      expect g (frames scale es stats) (path_loglik scale es stats)).
  { apply expect_ext. intros p Hp. rewrite frames_length in Hp.
    unfold path_llh, path_loglik. rewrite map_length. apply sumf_ext. intros t Ht. apply in_seq in Ht.
    rewrite (map_nth_lt _ _ _ []) by lia. rewrite (map_nth_lt _ _ _ e0); [reflexivity|].
    rewrite Hl. eapply nth_path_lt; eauto. lia. }
  rewrite EE in H. lra.
Qed.

(** ** Counts of a hard path *)
Lemma hard_trans_sum p e s : 
  sumf (fun xi => num_val (xi e s)) (hard_trans p) = bigram_count e s p.
Proof.
  unfold hard_trans. rewrite sumf_map. cbn [num_val]. unfold bigram_count.
  induction p as [|a [|b p] IH]; [reflexivity|reflexivity|].
  cbn [tl combine length pred seq]. rewrite !sumf_cons. cbn [tl] in IH. cbn [fst snd nth].
  f_equal.
  - rewrite (Nat.eqb_sym e a), (Nat.eqb_sym s b). reflexivity.
  - etransitivity; [exact IH|]. cbn [length pred]. rewrite <- seq_shift, sumf_map. reflexivity.
Qed.

Lemma phone_starts_split ends s p : NoDup ends ->
  phone_starts ends s p =
  sumf (fun e => bigram_count e s p) ends + (if Nat.eqb (nth 0 p 0%nat) s then 1 else 0).
Proof.
  intros Hn. unfold phone_starts. rewrite Rplus_comm. f_equal.
  unfold bigram_count. rewrite sumf_swap. apply sumf_ext. intros t _.
  destruct (Nat.eqb (nth (S t) p 0%nat) s).
  - rewrite andb_true_r, existsb_ends by auto. apply sumf_ext. intros; now rewrite andb_true_r.
  - rewrite andb_false_r. symmetry. apply sumf_zero. intros; now rewrite andb_false_r.
Qed.

Lemma phone_counts_hard starts ends p k : NoDup ends -> p <> [] -> (k < length starts)%nat ->
  nth k (phone_counts starts ends (hard_trans p) (hd (fun _ => NaN) (map unit_num p))) 0 =
  phone_starts ends (nth k starts 0%nat) p.
Proof.
  intros Hn Hp Hk. unfold phone_counts. rewrite (map_nth_lt _ _ _ 0%nat) by auto.
  rewrite phone_starts_split by auto. f_equal.
  - apply sumf_ext. intros. apply hard_trans_sum.
  - destruct p as [|a p]; [congruence|]. simpl. now rewrite Nat.eqb_sym.
Qed.

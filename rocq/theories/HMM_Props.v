(** C16-C21, C72, C80-C82: mixtures, HMMs and phone loops. *)
From Coq Require Import Reals List Arith Bool Lia Lra.
From Verif Require Import Prelude Vec Gibbs Edit_Model Edit_Proofs Dec_Model Dec_Proofs
  FB_Model FB_Spec FB_Proofs FB_Viterbi Set_Model Set_Spec Set_Proofs Set_Index Set_Props
  HMM_Model HMM_Spec HMM_Proofs.
Import ListNotations.
Local Open Scope R_scope.

(** ** C16: mixtures *)
Theorem C16_value llhs logw : length llhs = length logw -> llhs <> [] ->
  exists resps, mixture_ellh llhs logw None =
    Ok (ln (sumf (fun k => exp (nth k llhs 0 + nth k logw 0)) (seq 0 (length llhs))), resps) /\
    length resps = length llhs /\ is_dist resps /\
    forall k, (k < length llhs)%nat ->
      nth k resps 0 = exp (nth k llhs 0 + nth k logw 0) /
        sumf (fun k => exp (nth k llhs 0 + nth k logw 0)) (seq 0 (length llhs)).
Proof.
  intros Hl Hne.
  assert (E : rsum (map exp (vadd llhs logw)) =
    sumf (fun k => exp (nth k llhs 0 + nth k logw 0)) (seq 0 (length llhs))).
  { unfold vadd. rewrite map_map2, (rsum_map2_index _ _ _ 0 0) by auto. reflexivity. }
  exists (map exp (mixture_log_resps llhs logw)). unfold mixture_ellh.
  rewrite mixture_value by auto. unfold tlse at 1. rewrite E.
  split; [reflexivity|]. split; [now rewrite map_length, mixture_log_resps_length|].
  split; [split|].
  - intros x Hx. apply in_map_iff in Hx. destruct Hx as (y & <- & _). apply Rlt_le, exp_pos.
  - now apply mixture_resps_sum.
  - intros k Hk. rewrite (map_nth_lt _ _ _ 0) by (now rewrite mixture_log_resps_length).
    rewrite mixture_log_resps_nth by auto. unfold Rminus.
    rewrite exp_plus, exp_Ropp, tlse_exp by (now apply vadd_nonempty). rewrite E. reflexivity.
Qed.

(** The value is the maximum over all the responsibilities r of
    sum r*llh - KL(r || w), reached by the returned responsibilities. *)
Theorem C16_optimal llhs logw : length llhs = length logw -> llhs <> [] ->
  exists v resps, mixture_ellh llhs logw None = Ok (v, resps) /\
    v = sumf (fun k => nth k resps 0 * (nth k llhs 0 + nth k logw 0 - ln (nth k resps 0)))
          (seq 0 (length llhs)) /\
    forall r, length r = length llhs -> is_dist r ->
      sumf (fun k => nth k r 0 * (nth k llhs 0 + nth k logw 0 - ln (nth k r 0)))
          (seq 0 (length llhs)) <= v.
Proof.
  intros Hl Hne. unfold mixture_ellh. do 2 eexists. split; [reflexivity|]. split.
  - unfold local_kl. pose proof (mixture_log_resps_length llhs logw Hl) as Hr.
    rewrite (rsum_map2_index _ _ _ 0 0) by (rewrite map_length; auto).
    rewrite (rsum_map2_index _ (mixture_log_resps llhs logw) logw 0 0) by congruence.
    rewrite Hr, <- sumf_minus. apply sumf_ext. intros k Hk. apply in_seq in Hk.
    rewrite (map_nth_lt _ _ _ 0) by lia. rewrite ln_exp. ring.
  - intros r Hr Hd. rewrite mixture_value by auto.
    eapply Rle_trans; [|apply (mixture_optimal llhs logw r); auto].
    rewrite (rsum_map2_index _ _ _ 0 0) by auto.
    rewrite (rsum_map2_index _ r logw 0 0) by congruence. rewrite Hr, <- sumf_minus.
    apply Req_le. apply sumf_ext. intros; ring.
Qed.

(** The weights are the expected log-probabilities of the categorical; the
    likelihood and the statistics are those of a mixture emission (C15). *)
Theorem C16_model p cf m x : wf m -> length cf = size m -> (0 < size m)%nat ->
  mixture_log_weights cf = map (cat_logprob cf) (seq 0 (length cf)) /\
  mixture_ellh (ellh m x) (mixture_log_weights cf) None =
  Ok (em_llh x (EMix p 0 cf (denote m)), em_post x cf (denote m)).
Proof.
  intros. split; [apply mixture_log_weights_eq|now apply mixture_as_emission].
Qed.

Theorem C16_statistics p cf m d stats q rows cols :
  wf m -> length cf = size m -> (0 < size m)%nat -> NoDup (p :: params m) -> accepts d m ->
  Forall (fun x => length x = d) stats ->
  shape (Mix p [cf] m) q = Some (rows, cols) ->
  exists M,
    dget Nat.eq_dec (mixture_accumulate p m stats (map (fun x => em_post x cf (denote m)) stats)) q = Some M /\
    length M = rows /\
    forall k, (k < rows)%nat -> length (nth k M []) = cols /\
      forall i, (i < cols)%nat ->
        nth i (nth k M []) 0 =
        sumf (fun x => em_acc (q, k) x i (EMix p 0 cf (denote m)) 1) stats.
Proof.
  intros Hw Hl Hp Hnd Ha Hst Hsh. rewrite mixture_accumulate_mix by auto.
  assert (Hwm : wf (Mix p [cf] m)).
  { simpl. split; [auto|]. split; [lia|]. exists (size m). repeat split; auto. }
  destruct (accumulate_denote (Mix p [cf] m) d stats (map (fun _ => [1]) stats) q rows cols)
    as (M & HM & H1 & H2); auto.
  - now rewrite map_length.
  - apply Forall_forall. intros r Hr. apply in_map_iff in Hr. destruct Hr as (x & <- & _). reflexivity.
  - exists M. split; auto. split; auto. intros k Hk. destruct (H2 k Hk) as [H3 H4]. split; auto.
    intros i Hi. rewrite H4 by auto. unfold acc_total. rewrite map2_map_r.
    assert (Hden : denote (Mix p [cf] m) = [EMix p 0 cf (denote m)]).
    { cbn [denote length]. rewrite Nat.div_1_r. cbn [seq map nth Nat.mul Nat.add]. f_equal. f_equal.
      rewrite (map_nth_seq (fun e => e) (denote m) e0). apply map_id. }
    rewrite Hden. cbn [map2]. clear. induction stats as [|x stats IH]; [reflexivity|].
    rewrite sumf_cons. cbn [map2 rsum]. f_equal; [|exact IH]. unfold rsum. simpl. lra.
Qed.

(** With labels the value is the likelihood of the labelled component. *)
Theorem C16_labels llhs logw s :
  ((s < length llhs)%nat ->
     mixture_ellh llhs logw (Some s) = Ok (nth s llhs 0, unit_row (length llhs) s)) /\
  ((length llhs <= s)%nat -> mixture_ellh llhs logw (Some s) = Err IndexError).
Proof.
  unfold mixture_ellh, onehot. split; intros H.
  - destruct (Nat.ltb_spec s (length llhs)); [|lia]. cbn [bindr]. f_equal. f_equal.
    rewrite (rsum_map2_index _ _ _ 0 0) by now rewrite unit_row_length.
    rewrite (sumf_seq_single _ _ s) by
      (auto; intros k Hk Hks; apply in_seq in Hk || idtac; rewrite unit_row_nth by lia;
       destruct (Nat.eqb_spec k s); try congruence; ring).
    rewrite unit_row_nth, Nat.eqb_refl by auto. ring.
  - destruct (Nat.ltb_spec s (length llhs)); [lia|]. reflexivity.
Qed.

Example C16_example :
  exists resps, mixture_ellh [ln 3; ln 5] [ln (1/4); ln (1/4)] None = Ok (ln 2, resps) /\
    nth 0 resps 0 = 3/8 /\ nth 1 resps 0 = 5/8.
Proof.
  destruct (C16_value [ln 3; ln 5] [ln (1/4); ln (1/4)] eq_refl ltac:(discriminate))
    as (r & H & _ & _ & Hr). exists r.
  assert (E : sumf (fun k => exp (nth k [ln 3; ln 5] 0 + nth k [ln (1/4); ln (1/4)] 0)) (seq 0 2) = 2).
  { unfold sumf, rsum. simpl. rewrite !exp_plus, !exp_ln by lra. lra. }
  simpl length in *. rewrite E in *. split; [exact H|].
  rewrite !Hr by lia. simpl. rewrite !exp_plus, !exp_ln by lra. lra.
Qed.

(** ** C80: what the soft training pass computes, over all the state paths *)
Theorem C80_value amax m g order own scale stats v c :
  wf m -> (forall o, In o order -> (o < size m)%nat) -> length order = cg_n g ->
  let es := map (fun o => nth o (denote m) e0) order in
  0 < evidence g (frames scale es stats) ->
  hmm_ellh amax m g order own Soft scale stats = Ok (v, c) ->
  v = map (fun t => Some (expect g (frames scale es stats)
             (fun p => scale * em_llh (nth t stats []) (nth (nth t p 0%nat) es e0))))
        (seq 0 (length stats)).
Proof. cbv zeta. intros Hw Ho Hn Hev H. eapply soft_value; eauto. Qed.

Theorem C80_statistics amax m d g order own scale stats v c q rows cols :
  wf m -> NoDup (params m) -> accepts d m -> Forall (fun x => length x = d) stats ->
  (forall o, In o order -> (o < size m)%nat) -> length order = cg_n g ->
  let es := map (fun o => nth o (denote m) e0) order in
  0 < evidence g (frames scale es stats) ->
  hmm_ellh amax m g order own Soft scale stats = Ok (v, c) ->
  shape m q = Some (rows, cols) ->
  exists D M, hmm_accumulate m (cg_n g) order c stats = Some D /\
    dget Nat.eq_dec D q = Some M /\ length M = rows /\
    forall k, (k < rows)%nat -> length (nth k M []) = cols /\
      forall i, (i < cols)%nat ->
        nth i (nth k M []) 0 =
        scale * expect g (frames scale es stats) (path_stats (q, k) i es stats).
Proof.
  cbv zeta. intros Hw Hnd Ha Hst Ho Hn Hev H Hsh.
  rewrite (soft_accumulate amax m g order scale stats Hw Ho own v c Hev H).
  eexists. edestruct (dyn_accumulate_denote m d order stats
    (map (vscale scale) (soft_resps g (frames scale (reorder (denote m) order) stats))) q rows cols)
    as (M & HM & H1 & H2); eauto.
  - unfold soft_resps. rewrite !map_length, seq_length, frames_length. reflexivity.
  - exists M. split; [reflexivity|]. split; [exact HM|]. split; auto.
    intros k Hk. destruct (H2 k Hk) as [H3 H4]. split; auto. intros i Hi. rewrite H4 by auto.
    now apply soft_acc_total.
Qed.

(** The pass fails only on empty data or on a graph naming emissions that do
    not exist. *)
Theorem C80_defined amax m g order own scale stats :
  (forall o, In o order -> (o < size m)%nat) -> stats <> [] ->
  exists r, hmm_ellh amax m g order own Soft scale stats = Ok r.
Proof.
  intros Ho Hne. unfold hmm_ellh. rewrite pc_llhs_ok by auto. cbn [bindr]. unfold inference.
  set (L := map _ stats). assert (HL : as_rows L <> []).
  { unfold L. destruct stats; [congruence|discriminate]. }
  destruct (posteriors_ok g (as_rows L) HL) as (posts & lnm & -> & _). cbn [bindr]. eauto.
Qed.

Theorem C80_undefined amax m g order own mode scale stats :
  (stats = [] -> hmm_ellh amax m g order own Soft scale stats = Err IndexError) /\
  (stats <> [] -> (exists o, In o order /\ (size m <= o)%nat) ->
     hmm_ellh amax m g order own mode scale stats = Err IndexError).
Proof.
  split.
  - intros ->. reflexivity.
  - intros Hne Ho. unfold hmm_ellh, pc_llhs. destruct stats as [|x st]; [congruence|].
    simpl. rewrite dyn_ellh_err by auto. reflexivity.
Qed.

Example C80_example :
  hmm_ellh first_max (Leaf 0 1 [[0]; [1]] 0) {| cg_n := 2; cg_init := fun _ => Fin 0;
    cg_final := fun _ => Fin 0; cg_trans := fun _ _ => Fin 0 |} [0; 5]%nat true Soft 1 [[1]] = Err IndexError /\
  path_stats (0, 1)%nat 0 [EComp 0 0 [0] 0; EComp 0 1 [1] 0] [[3]; [4]; [5]] [1; 0; 1]%nat = 8.
Proof.
  split.
  - apply C80_undefined; [discriminate|]. exists 5%nat. simpl. split; [auto|lia].
  - unfold path_stats, sumf, rsum. simpl. lra.
Qed.

(** ** C18: relation of the returned value to the evidence *)
Definition total (v : list (option R)) : R :=
  rsum (map (fun o => match o with Some r => r | None => 0 end) v).

Lemma total_value g scale es stats :
  total (map (fun t => Some (expect g (frames scale es stats)
             (fun p => scale * em_llh (nth t stats []) (nth (nth t p 0%nat) es e0))))
        (seq 0 (length stats))) =
  expect g (frames scale es stats) (path_loglik scale es stats).
Proof.
  unfold total. rewrite map_map. unfold path_loglik. rewrite expect_sumf. reflexivity.
Qed.

(** The value is the log-evidence plus the divergence of the posterior over
    paths from their prior: subtracting this divergence would give the
    log-evidence exactly. *)
Theorem C18_value_partial amax m g order own scale stats v c :
  wf m -> (forall o, In o order -> (o < size m)%nat) -> length order = cg_n g ->
  let ls := frames scale (map (fun o => nth o (denote m) e0) order) stats in
  0 < evidence g ls ->
  hmm_ellh amax m g order own Soft scale stats = Ok (v, c) ->
  total v = ln (evidence g ls) + path_kl g ls.
Proof.
  cbv zeta. intros Hw Ho Hn Hev H.
  rewrite (C80_value amax m g order own scale stats v c Hw Ho Hn Hev H), total_value.
  apply value_decomposition; auto. now rewrite map_length.
Qed.

(** Hence for every proper graph the value is an upper bound, not a lower one. *)
Theorem C18_upper_bound_refuted amax m g order own scale stats v c :
  wf m -> (forall o, In o order -> (o < size m)%nat) -> length order = cg_n g ->
  substochastic g ->
  let ls := frames scale (map (fun o => nth o (denote m) e0) order) stats in
  0 < evidence g ls ->
  hmm_ellh amax m g order own Soft scale stats = Ok (v, c) ->
  ln (evidence g ls) <= total v.
Proof.
  cbv zeta. intros Hw Ho Hn Hs Hev H.
  rewrite (C18_value_partial amax m g order own scale stats v c Hw Ho Hn Hev H).
  pose proof (path_kl_nonneg g scale (map (fun o => nth o (denote m) e0) order) stats
    ltac:(now rewrite map_length) Hs Hev). lra.
Qed.

(** Two states, one frame, uniform initial probabilities, likelihoods 1 and 4. *)
Definition g2 : cgraph := {| cg_n := 2; cg_init := fun _ => Fin (ln (1/2));
  cg_final := fun _ => Fin 0; cg_trans := fun _ _ => Fin (ln (1/2)) |}.
Definition m2 : mset := Leaf 0 1 [[0]; [ln 4]] 0.

Lemma g2_evidence : evidence g2 (frames 1 (map (fun o => nth o (denote m2) e0) [0; 1]%nat) [[1]]) = 5/2.
Proof.
  unfold evidence, sumf, rsum, dot, vmul. simpl. unfold dot, vmul, rsum. simpl.
  rewrite !exp_ln by lra. replace (1 * (1 * 0 + 0 + 0)) with 0 by ring.
  replace (1 * (1 * ln 4 + 0 + 0)) with (ln 4) by ring. rewrite exp_0, exp_ln by lra. lra.
Qed.

Theorem C18_strict_refuted : exists amax m g order stats v c,
  is_argmax amax /\ wf m /\ substochastic g /\ length order = cg_n g /\
  hmm_ellh amax m g order true Soft 1 stats = Ok (v, c) /\
  ln (evidence g (frames 1 (map (fun o => nth o (denote m) e0) order) stats)) < total v.
Proof.
  assert (Hw : wf m2) by (simpl; auto).
  assert (Ho : forall o, In o [0; 1]%nat -> (o < size m2)%nat) by (simpl; intros o [<-|[<-|[]]]; lia).
  destruct (C80_defined first_max m2 g2 [0;1]%nat true 1 [[1]] Ho ltac:(discriminate)) as ([v c] & H).
  exists first_max, m2, g2, [0;1]%nat, [[1]], v, c.
  split; [apply first_max_is_argmax|]. split; [auto|]. split.
  { split; [|split].
    - unfold sumf, rsum; simpl; rewrite !exp_ln by lra; lra.
    - intros i _. unfold sumf, rsum; simpl; rewrite !exp_ln by lra; lra.
    - intros i _. simpl. rewrite exp_0. lra. }
  split; [reflexivity|]. split; [exact H|].
  assert (Hev := g2_evidence).
  rewrite (C80_value first_max m2 g2 [0;1]%nat true 1 [[1]] v c Hw Ho eq_refl ltac:(rewrite Hev; lra) H).
  rewrite total_value. unfold expect. rewrite Hev.
  assert (El : forall p, path_loglik 1 (map (fun o => nth o (denote m2) e0) [0;1]%nat) [[1]] p =
     1 * em_llh [1] (nth (nth 0 p 0%nat) (map (fun o => nth o (denote m2) e0) [0;1]%nat) e0)).
  { intros p. unfold path_loglik, sumf, rsum. simpl. lra. }
  assert (E : sumf (fun p => path_prob g2 (frames 1 (map (fun o => nth o (denote m2) e0) [0;1]%nat) [[1]]) p / (5/2) *
      path_loglik 1 (map (fun o => nth o (denote m2) e0) [0;1]%nat) [[1]] p)
      (paths (cg_n g2) (length (frames 1 (map (fun o => nth o (denote m2) e0) [0;1]%nat) [[1]]))) = 4/5 * ln 4).
  { unfold sumf. simpl. rewrite !El. unfold rsum, dot, vmul. simpl. unfold dot, vmul, rsum. simpl.
    rewrite !exp_ln by lra. replace (1 * (1 * 0 + 0 + 0)) with 0 by ring.
    replace (1 * (1 * ln 4 + 0 + 0)) with (ln 4) by ring. rewrite exp_0, exp_ln by lra. lra. }
  rewrite E.
  (* (5/2)^5 < 4^4 *)
  assert (H5 : ln ((5/2) * (5/2) * (5/2) * (5/2) * (5/2)) = 5 * ln (5/2)).
  { rewrite !ln_mult by lra. ring. }
  assert (H4 : ln (4 * 4 * 4 * 4) = 4 * ln 4) by (rewrite !ln_mult by lra; ring).
  assert (Hlt : ln ((5/2) * (5/2) * (5/2) * (5/2) * (5/2)) < ln (4 * 4 * 4 * 4)) by (apply ln_increasing; lra).
  lra.
Qed.

(** ** C17: HMM.posteriors *)
Theorem C17_scaled_posteriors_partial amax m c0 g order own s stats v c :
  wf m -> linear_const c0 m -> (forall o, In o order -> (o < size m)%nat) ->
  length order = cg_n g ->
  hmm_ellh amax m g order own Soft s stats = Ok (v, c) ->
  exists posts, hmm_posteriors amax m g order s stats = Ok posts /\
    length posts = length stats /\
    forall t j d, (t < length stats)%nat -> (j < cg_n g)%nat ->
      nth t posts d j = nth t (c_resps c) d j.
Proof.
  intros Hw Hlin Ho Hn. unfold hmm_ellh, hmm_posteriors, inference.
  rewrite !pc_llhs_ok by auto. cbn [bindr]. rewrite map_map.
  set (A := map _ stats). set (B := map _ stats). intros H.
  assert (HA : length A = length stats) by apply map_length.
  assert (HB : length B = length stats) by apply map_length.
  assert (Hne : length stats <> 0%nat).
  { intros E. rewrite E in HA. destruct A; [|discriminate]. discriminate H. }
  destruct (posteriors_ok g (as_rows A)) as (pa & la & Ha & Hla).
  { intros E. apply (f_equal (@length _)) in E. rewrite as_rows_length in E. simpl in E. lia. }
  destruct (posteriors_ok g (as_rows B)) as (pb & lb & Hb & Hlb).
  { intros E. apply (f_equal (@length _)) in E. rewrite as_rows_length in E. simpl in E. lia. }
  rewrite Ha in H. cbn [bindr fst snd] in H. injection H as _ <-. rewrite Hb. cbn [bindr fst c_resps].
  exists pb. split; [reflexivity|]. split; [rewrite Hlb, as_rows_length; auto|].
  intros t j d Ht Hj.
  apply (posteriors_shift g A B (repeat ((1 - s) * c0) (length stats)) pa pb la lb); try congruence; try lia.
  - rewrite repeat_length. congruence.
  - intros t' j' Ht' Hj'. rewrite HA in Ht'. unfold A, B.
    rewrite !(map_nth_lt _ stats _ []) by auto. rewrite !vscale_nth.
    rewrite !(map_nth_lt _ order _ 0%nat) by lia.
    assert (Hr : nth t' (repeat ((1 - s) * c0) (length stats)) 0 = (1 - s) * c0).
    { apply (repeat_spec (length stats)). apply nth_In. now rewrite repeat_length. }
    rewrite Hr, (ellh_scaled c0) by auto.
    rewrite (map_nth_lt _ _ _ 0); [ring|]. rewrite ellh_length. apply Ho. apply nth_In. lia.
Qed.

(** With mixture emissions the two disagree. *)
Definition m17 : mset := Joint [Mix 1 [[0; ln (1/2)]] (Leaf 0 1 [[0]; [ln 9]] 0); Leaf 2 1 [[0]] 0].

Lemma m17_ellh y : ellh m17 [y] = [ln ((1 + exp (y * ln 9)) / 2); 0].
Proof.
  assert (Hw : wf m17).
  { simpl. repeat split; auto. exists 2%nat. repeat split; auto. }
  rewrite ellh_denote by auto. unfold m17. cbn [denote map]. cbn [length map seq app Nat.div].
  change (2 / 1)%nat with 2%nat. simpl. unfold dot, vmul, rsum. simpl.
  unfold joint_probs, cat_logprobs, cat_logprob, dot, vmul, rsum. simpl.
  assert (E2 : exp (ln (1/2)) = 1/2) by (apply exp_ln; lra).
  f_equal; [|f_equal; ring]. f_equal.
  replace (0 + ln (1 / 2) + (y * 0 + 0 + 0)) with (ln (1/2)) by ring.
  replace (ln (1 / 2) + (y * ln 9 + 0 + 0)) with (ln (1/2) + y * ln 9) by ring.
  rewrite exp_plus, E2. lra.
Qed.

Lemma g2_posterior l : forall posts lnm, posteriors g2 (as_rows [[l; 0]]) = Ok (posts, lnm) ->
  nth 0 posts (fun _ => NaN) 0%nat = Num (exp l / (exp l + 1)).
Proof.
  intros posts lnm H. pose proof (exp_pos l).
  assert (Hev : evidence g2 (as_rows [[l; 0]]) = 1/2 * (exp l + 1)).
  { unfold evidence, sumf, rsum. simpl. rewrite !exp_ln, exp_0 by lra. lra. }
  rewrite (posteriors_state g2 (as_rows [[l; 0]]) posts lnm 0 0 (fun _ => NaN) H);
    [|rewrite Hev; lra|simpl; lia|simpl; lia].
  f_equal. rewrite Hev. unfold visit_mass, sumf, rsum. simpl.
  rewrite !exp_ln, exp_0 by lra. field. lra.
Qed.

Theorem C17_mixture_emissions_refuted : exists v c posts,
  hmm_ellh first_max m17 g2 [0;1]%nat true Soft (1/2) [[1]] = Ok (v, c) /\
  hmm_posteriors first_max m17 g2 [0;1]%nat (1/2) [[1]] = Ok posts /\
  nth 0 posts (fun _ => NaN) 0%nat = Num (2/3) /\
  nth 0 (c_resps c) (fun _ => NaN) 0%nat <> Num (2/3).
Proof.
  assert (E9 : exp (1 * ln 9) = 9) by (rewrite Rmult_1_l; apply exp_ln; lra).
  assert (E3 : exp (1/2 * ln 9) = 3).
  { replace 9 with (3 * 3) by ring. rewrite ln_mult by lra.
    replace (1/2 * (ln 3 + ln 3)) with (ln 3) by field. apply exp_ln. lra. }
  assert (Hd1 : dyn_ellh m17 [0;1]%nat [1] = Ok [ln 5; 0]).
  { unfold dyn_ellh. simpl size. cbn [mapM Nat.ltb Nat.leb bindr]. rewrite m17_ellh, E9. simpl.
    replace ((1 + 9) / 2) with 5 by field. reflexivity. }
  assert (Hd2 : dyn_ellh m17 [0;1]%nat [1/2*1] = Ok [ln 2; 0]).
  { unfold dyn_ellh. simpl size. cbn [mapM Nat.ltb Nat.leb bindr]. rewrite m17_ellh.
    replace (1/2*1*ln 9) with (1/2*ln 9) by ring. rewrite E3. simpl.
    replace ((1 + 3) / 2) with 2 by field. reflexivity. }
  unfold hmm_ellh, hmm_posteriors, pc_llhs, inference. cbn [map vscale mapM].
  rewrite Hd1, Hd2. cbn [bindr mapM map vscale].
  replace (1/2 * 0) with 0 by ring. replace (1 * 0) with 0 by ring. replace (1 * ln 2) with (ln 2) by ring.
  destruct (posteriors_ok g2 (as_rows [[1/2 * ln 5; 0]])) as (pa & la & Ha & _); [discriminate|].
  destruct (posteriors_ok g2 (as_rows [[ln 2; 0]])) as (pb & lb & Hb & _); [discriminate|].
  rewrite Ha, Hb. cbn [bindr fst snd]. do 3 eexists. split; [reflexivity|]. split; [reflexivity|].
  cbn [c_resps]. split.
  - rewrite (g2_posterior _ _ _ Hb). f_equal. rewrite exp_ln by lra. lra.
  - rewrite (g2_posterior _ _ _ Ha). intros E. injection E as E.
    pose proof (exp_pos (1/2 * ln 5)) as Hp.
    assert (Hs : exp (1/2 * ln 5) * exp (1/2 * ln 5) = 5).
    { rewrite <- exp_plus. replace (1/2 * ln 5 + 1/2 * ln 5) with (ln 5) by field. apply exp_ln. lra. }
    set (z := exp (1/2 * ln 5)) in *.
    assert (Hz : z = 2).
    { apply (f_equal (fun w => w * (z + 1))) in E. unfold Rdiv in E.
      rewrite Rmult_assoc, Rinv_l in E by lra. lra. }
    rewrite Hz in Hs. lra.
Qed.

(** ** C72: training with the best path or with alignments *)
Theorem C72_short_utterance_refuted amax g llhs path trans :
  (exists s, In s path /\ (length llhs <= s)%nat) ->
  inference amax g llhs (Aligned path) trans = Err IndexError.
Proof.
  intros (s & Hs & Hl). unfold inference.
  destruct (existsb (fun s => (cg_n g <=? s)%nat) path); [reflexivity|].
  replace (existsb (fun s => (length llhs <=? s)%nat) path) with true; [reflexivity|].
  symmetry. apply existsb_exists. exists s. split; auto. now apply Nat.leb_le.
Qed.

(** A path through state 1 of a two-state graph is refused on a single frame,
    for the best path too. *)
Definition g72 : cgraph := {| cg_n := 2;
  cg_init := fun i => if Nat.eqb i 1 then Fin 0 else NInf;
  cg_final := fun _ => Fin 0; cg_trans := fun _ _ => Fin (ln (1/2)) |}.

Theorem C72_best_path_refuted amax : is_argmax amax ->
  best_path amax g72 (as_rows [[0; 0]]) = Ok [1%nat] /\
  inference amax g72 [[0; 0]] Viterbi true = Err IndexError /\
  0 < evidence g72 (as_rows [[0; 0]]).
Proof.
  intros Ha.
  assert (Hb : best_path amax g72 (as_rows [[0; 0]]) = Ok [1%nat]).
  { destruct (best_path_optimal amax Ha g72 ltac:(simpl; lia) (as_rows [[0; 0]]) ltac:(discriminate))
      as (b & -> & Hin & Hopt).
    simpl in Hin. destruct Hin as [<-|[<-|[]]]; [|reflexivity].
    specialize (Hopt [1%nat] ltac:(simpl; auto)). simpl in Hopt. contradiction. }
  split; [exact Hb|]. split.
  - unfold inference. rewrite Hb. reflexivity.
  - unfold evidence, sumf, rsum. simpl. rewrite !exp_0. lra.
Qed.

(** When no state of the path exceeds the number of frames, the
    responsibilities are exactly the path. *)
Theorem C72_hard_responsibilities_partial amax g llhs path trans :
  length path = length llhs ->
  (forall s, In s path -> (s < cg_n g)%nat /\ (s < length llhs)%nat) ->
  exists resps tr, inference amax g llhs (Aligned path) trans = Ok (resps, tr) /\
    length resps = length llhs /\
    (forall t j, (t < length llhs)%nat ->
      nth t resps (fun _ => NaN) j = Num (if Nat.eqb (nth t path 0%nat) j then 1 else 0)) /\
    (if trans then exists M, tr = Some M /\ length M = pred (length llhs) /\
       forall t i j, (S t < length llhs)%nat ->
         nth t M (fun _ _ => NaN) i j =
         Num (if Nat.eqb (nth t path 0%nat) i && Nat.eqb (nth (S t) path 0%nat) j then 1 else 0)
     else tr = None).
Proof.
  intros Hl Hs. unfold inference.
  assert (E1 : existsb (fun s => (cg_n g <=? s)%nat) path = false).
  { apply not_true_is_false. intros E. apply existsb_exists in E. destruct E as (s & Hi & E).
    apply Nat.leb_le in E. destruct (Hs s Hi). lia. }
  assert (E2 : existsb (fun s => (length llhs <=? s)%nat) path = false).
  { apply not_true_is_false. intros E. apply existsb_exists in E. destruct E as (s & Hi & E).
    apply Nat.leb_le in E. destruct (Hs s Hi). lia. }
  rewrite E1, E2, Hl, Nat.eqb_refl. cbn [negb]. do 2 eexists. split; [reflexivity|].
  split; [now rewrite map_length|]. split.
  - intros t j Ht. rewrite (map_nth_lt _ _ _ 0%nat) by lia. unfold unit_num. now rewrite Nat.eqb_sym.
  - destruct trans; [|reflexivity]. eexists. split; [reflexivity|].
    assert (Hc : length (combine path (tl path)) = pred (length path)).
    { rewrite combine_length. destruct path; [reflexivity|]. cbn [tl length pred]. lia. }
    unfold hard_trans. split; [rewrite map_length, Hc; congruence|].
    intros t i j Ht. rewrite (map_nth_lt _ _ _ (0, 0)%nat) by (rewrite Hc; lia).
    assert (Hnth : nth t (combine path (tl path)) (0, 0)%nat = (nth t path 0%nat, nth (S t) path 0%nat)).
    { clear - Ht Hl. rewrite <- Hl in Ht. clear Hl. revert t Ht. induction path as [|a [|b path] IH]; intros t Ht;
        simpl in Ht; try lia; (destruct t; [reflexivity|]). cbn [tl combine nth]. apply (IH t). simpl in *. lia. }
    rewrite Hnth. cbn [fst snd]. rewrite (Nat.eqb_sym i), (Nat.eqb_sym j). reflexivity.
Qed.

(** ** C81: decoding *)
Theorem C81_decode amax m g order scale stats : is_argmax amax ->
  wf m -> (forall o, In o order -> (o < size m)%nat) -> length order = cg_n g ->
  (0 < cg_n g)%nat -> stats <> [] ->
  let ls := frames scale (map (fun o => nth o (denote m) e0) order) stats in
  exists best, hmm_decode amax m g order scale stats = Ok (map (fun s => nth s order 0%nat) best) /\
    In best (paths (cg_n g) (length stats)) /\
    forall p, In p (paths (cg_n g) (length stats)) ->
      lp_le (path_score g ls p) (path_score g ls best).
Proof.
  cbv zeta. intros Ha Hw Ho Hn Hpos Hne. unfold hmm_decode. rewrite pc_llhs_reorder by auto. cbn [bindr].
  rewrite as_rows_frames. unfold reorder. set (ls := frames _ _ _).
  assert (Hls : length ls = length stats) by apply frames_length.
  destruct (best_path_optimal amax Ha g Hpos ls) as (b & Hb & Hin & Hopt).
  { intros E. rewrite E in Hls. destruct stats; [congruence|discriminate]. }
  rewrite Hls in *. rewrite Hb. exists b. split; [reflexivity|]. split; auto.
Qed.

Example C81_example :
  hmm_decode first_max (Leaf 0 1 [[0]; [1]; [2]] 0)
    {| cg_n := 2; cg_init := fun i => if Nat.eqb i 0 then Fin 0 else NInf;
       cg_final := fun i => if Nat.eqb i 1 then Fin 0 else NInf; cg_trans := fun _ _ => Fin (-1) |}
    [2; 1]%nat 1 [[3]; [1]] = Ok [2; 1]%nat.
Proof.
  set (g := {| cg_n := 2 |}).
  destruct (C81_decode first_max (Leaf 0 1 [[0]; [1]; [2]] 0) g [2;1]%nat 1 [[3]; [1]]) as (b & -> & Hin & Hopt).
  - apply first_max_is_argmax.
  - simpl. auto.
  - simpl. intros o [<-|[<-|[]]]; lia.
  - reflexivity.
  - simpl; lia.
  - discriminate.
  - assert (Hb : b = [0; 1]%nat).
    { specialize (Hopt [0;1]%nat ltac:(simpl; auto)). simpl in Hin.
      destruct Hin as [<-|[<-|[<-|[<-|[]]]]]; try reflexivity; simpl in Hopt; contradiction. }
    subst b. reflexivity.
Qed.

(** ** C19: transitions of the phone loop *)
Theorem C19_entries logw starts ends trans e k :
  NoDup starts -> NoDup ends -> (forall x, In x ends -> ~ In x starts) ->
  length logw = length starts -> In e ends -> (k < length starts)%nat ->
  ex (trans e e) <= 1 ->
  ex (on_weights_update logw starts ends trans e (nth k starts 0%nat)) =
  (1 - ex (trans e e)) * exp (nth k logw 0).
Proof.
  intros Hs He Hd Hl Hin Hk Hle. unfold on_weights_update.
  rewrite (fold_update_entry starts (map (fun e => (e, logw)) ends) Hs) with (w := logw); auto.
  - rewrite ex_ladd, ex_lnp by lra. reflexivity.
  - apply Forall_forall. intros ew Hew. apply in_map_iff in Hew. destruct Hew as (x & <- & _). exact Hl.
  - rewrite map_map. cbn [fst]. now rewrite map_id.
  - intros ew Hew. apply in_map_iff in Hew. destruct Hew as (x & <- & Hx). cbn [fst]. auto.
  - apply in_map_iff. eauto.
Qed.

Theorem C19_others_unchanged logw starts ends trans i j :
  length logw = length starts -> ~ In i ends \/ ~ In j starts ->
  on_weights_update logw starts ends trans i j = trans i j.
Proof.
  intros Hl H. unfold on_weights_update. apply fold_update_other.
  - apply Forall_forall. intros ew Hew. apply in_map_iff in Hew. destruct Hew as (x & <- & _). exact Hl.
  - rewrite map_map. cbn [fst]. now rewrite map_id.
Qed.

(** Row of an end state that only loops on itself or goes to phone starts. *)
Theorem C19_row_sum logw starts ends trans n e :
  NoDup starts -> NoDup ends -> (forall x, In x ends -> ~ In x starts) ->
  length logw = length starts -> In e ends -> (e < n)%nat ->
  (forall s, In s starts -> (s < n)%nat) -> ex (trans e e) <= 1 ->
  (forall j, (j < n)%nat -> j <> e -> ~ In j starts -> ex (trans e j) = 0) ->
  sumf (fun j => ex (on_weights_update logw starts ends trans e j)) (seq 0 n) =
  ex (trans e e) + (1 - ex (trans e e)) * rsum (map exp logw).
Proof.
  intros Hs He Hd Hl Hin Hen Hsn Hle Hz.
  rewrite (row_sum_split _ n e starts); auto.
  - f_equal.
    + rewrite C19_others_unchanged by auto. reflexivity.
    + unfold sumf. rewrite (map_seq_nth _ starts 0%nat).
      change (sumf (fun k => ex (on_weights_update logw starts ends trans e (nth k starts 0%nat))) (seq 0 (length starts))
        = (1 - ex (trans e e)) * rsum (map exp logw)).
      rewrite (map_seq_nth exp logw 0), Hl.
      change (rsum (map (fun i => exp (nth i logw 0)) (seq 0 (length starts))))
        with (sumf (fun i => exp (nth i logw 0)) (seq 0 (length starts))).
      rewrite <- sumf_scal_l. apply sumf_ext. intros k Hk. apply in_seq in Hk. apply C19_entries; auto; lia.
  - intros j Hj Hne Hns. rewrite C19_others_unchanged by auto. auto.
Qed.

Theorem C19_row_stochastic logw starts ends trans n e :
  NoDup starts -> NoDup ends -> (forall x, In x ends -> ~ In x starts) ->
  length logw = length starts -> In e ends -> (e < n)%nat ->
  (forall s, In s starts -> (s < n)%nat) -> ex (trans e e) <= 1 ->
  (forall j, (j < n)%nat -> j <> e -> ~ In j starts -> ex (trans e j) = 0) ->
  rsum (map exp logw) = 1 ->
  sumf (fun j => ex (on_weights_update logw starts ends trans e j)) (seq 0 n) = 1.
Proof. intros. rewrite C19_row_sum by auto. rewrite H8. ring. Qed.

(** Phones with a single state: the self-loop is overwritten, and the row is
    not stochastic any more. *)
Theorem C19_single_state_phones_refuted :
  let trans := fun _ _ : nat => Fin (ln (1/2)) in
  let logw := [ln (1/2); ln (1/2)] in
  let new := on_weights_update logw [0; 1]%nat [0; 1]%nat trans in
  rsum (map exp logw) = 1 /\
  sumf (fun j => ex (trans 0%nat j)) (seq 0 2) = 1 /\
  ex (new 0%nat 0%nat) = 1/4 /\ sumf (fun j => ex (new 0%nat j)) (seq 0 2) = 1/2.
Proof.
  cbv zeta.
  assert (E2 : exp (ln (1/2)) = 1/2) by (apply exp_ln; lra).
  assert (El : lnp (1 - 1/2) = Fin (ln (1/2))).
  { unfold lnp. destruct (Rlt_dec 0 (1 - 1/2)); [|lra]. do 2 f_equal. lra. }
  unfold on_weights_update, update_end, row_set, sumf, rsum. simpl. rewrite E2, El. simpl.
  rewrite exp_plus, E2. lra.
Qed.

Example C19_example :
  let trans := fun i j : nat => if Nat.eqb i j then Fin (ln (1/4)) else NInf in
  ex (on_weights_update [ln (1/3); ln (2/3)] [0; 2]%nat [1; 3]%nat trans 1%nat 2%nat) = 1/2 /\
  sumf (fun j => ex (on_weights_update [ln (1/3); ln (2/3)] [0; 2]%nat [1; 3]%nat trans 3%nat j)) (seq 0 4) = 1.
Proof.
  cbv zeta. assert (E4 : exp (ln (1/4)) = 1/4) by (apply exp_ln; lra).
  assert (Hn : NoDup [0; 2]%nat) by (repeat constructor; simpl; intuition lia).
  assert (Hm : NoDup [1; 3]%nat) by (repeat constructor; simpl; intuition lia).
  assert (Hd : forall x, In x [1; 3]%nat -> ~ In x [0; 2]%nat) by (simpl; intuition lia).
  split.
  - change 2%nat with (nth 1 [0;2]%nat 0%nat). rewrite C19_entries; simpl; auto; [|rewrite E4; lra].
    rewrite E4, exp_ln by lra. lra.
  - apply C19_row_stochastic; auto.
    + right. now left.
    + intros x [<-|[<-|[]]]; lia.
    + simpl. rewrite E4. lra.
    + intros j Hj Hne _. destruct j as [|[|[|[|]]]]; simpl; try lra; lia.
    + unfold rsum. simpl. rewrite !exp_ln by lra. lra.
Qed.

(** ** C20: bigram phone loop *)
Lemma bigram_entries logm starts ends trans i k :
  NoDup starts -> NoDup ends -> (forall x, In x ends -> ~ In x starts) ->
  Forall (fun w => length w = length starts) logm -> length logm = length ends ->
  (i < length ends)%nat -> (k < length starts)%nat ->
  ex (trans (nth i ends 0%nat) (nth i ends 0%nat)) <= 1 ->
  ex (bigram_on_weights_update logm starts ends trans (nth i ends 0%nat) (nth k starts 0%nat)) =
  (1 - ex (trans (nth i ends 0%nat) (nth i ends 0%nat))) * exp (nth k (nth i logm []) 0).
Proof.
  intros Hs He Hd Hf Hl Hi Hk Hle. unfold bigram_on_weights_update.
  set (ews := map _ (combine _ _)).
  assert (HE : ews = map (fun i => (nth i ends 0%nat, nth i logm [])) (seq 0 (length ends))).
  { unfold ews. rewrite (combine_index (seq 0 (length ends)) ends 0%nat 0%nat) by apply seq_length.
    rewrite map_map, seq_length. apply map_ext_in. intros j Hj. apply in_seq in Hj. cbn [fst snd].
    now rewrite seq_nth by lia. }
  assert (HF : map fst ews = ends).
  { rewrite HE, map_map. cbn [fst]. rewrite (map_nth_seq (fun e => e) ends 0%nat). apply map_id. }
  rewrite (fold_update_entry starts ews Hs) with (w := nth i logm []); auto.
  - rewrite ex_ladd, ex_lnp by lra. reflexivity.
  - rewrite HE. apply Forall_forall. intros ew Hew. apply in_map_iff in Hew. destruct Hew as (x & <- & Hx).
    apply in_seq in Hx. unfold ew_ok. cbn [snd]. rewrite Forall_forall in Hf. apply Hf. apply nth_In. lia.
  - now rewrite HF.
  - intros ew Hew. apply Hd. rewrite <- HF. now apply in_map.
  - rewrite HE. apply in_map_iff. exists i. split; auto. apply in_seq. lia.
Qed.

(** With the stick-breaking set (row i of logp: expected log-probabilities of
    the phones after phone i) the update uses the right row. *)
Theorem C20_stick_breaking_partial logp starts ends trans i k :
  NoDup starts -> NoDup ends -> (forall x, In x ends -> ~ In x starts) ->
  Forall (fun w => length w = length starts) logp -> length logp = length ends ->
  (i < length ends)%nat -> (k < length starts)%nat ->
  ex (trans (nth i ends 0%nat) (nth i ends 0%nat)) <= 1 ->
  ex (bigram_on_weights_update (sbset_logm logp (length starts)) starts ends trans
        (nth i ends 0%nat) (nth k starts 0%nat)) =
  (1 - ex (trans (nth i ends 0%nat) (nth i ends 0%nat))) * exp (nth k (nth i logp []) 0).
Proof.
  intros Hs He Hd Hf Hl Hi Hk Hle.
  assert (HL : length (sbset_logm logp (length starts)) = length ends)
    by (unfold sbset_logm; rewrite map_length, eye_length; auto).
  rewrite bigram_entries; auto.
  - f_equal. f_equal. unfold sbset_logm. rewrite (map_nth_lt _ _ _ []) by (rewrite eye_length; lia).
    rewrite eye_nth by lia. rewrite (map_nth_lt _ _ _ 0%nat) by (rewrite seq_length; lia).
    rewrite seq_nth by lia. rewrite dot_unit_row by (rewrite ?map_length; lia).
    rewrite (map_nth_lt _ _ _ []) by lia. reflexivity.
  - apply Forall_forall. intros w Hw. apply in_map_iff in Hw. destruct Hw as (x & <- & _).
    now rewrite map_length, seq_length.
Qed.

Example C20_example :
  let trans := fun i j : nat => if Nat.eqb i j then Fin (ln (1/2)) else NInf in
  ex (bigram_on_weights_update (sbset_logm [[ln (1/4); ln (3/4)]; [ln (1/2); ln (1/2)]] 2)
        [0; 2]%nat [1; 3]%nat trans 1%nat 2%nat) = (1 - 1/2) * (3/4).
Proof.
  cbv zeta. change 1%nat with (nth 0 [1;3]%nat 0%nat). change 2%nat with (nth 1 [0;2]%nat 0%nat) at 3.
  rewrite (C20_stick_breaking_partial _ [0;2]%nat [1;3]%nat _ 0 1).
  + simpl. rewrite !exp_ln by lra. lra.
  + repeat constructor; simpl; intuition lia.
  + repeat constructor; simpl; intuition lia.
  + intros x [<-|[<-|[]]] [|[|[]]]; discriminate.
  + repeat constructor.
  + reflexivity.
  + simpl; lia.
  + simpl; lia.
  + simpl. rewrite exp_ln by lra. lra.
Qed.

(** With the (default) categorical set, the rows and columns are exchanged: the
    transition from phone i to phone k gets the probability of i after k. *)
Theorem C20_categorical_set_transposed_refuted cforms starts ends trans i k :
  NoDup starts -> NoDup ends -> (forall x, In x ends -> ~ In x starts) ->
  Forall (fun cf => length cf = length ends) cforms -> length cforms = length starts ->
  (i < length ends)%nat -> (k < length starts)%nat ->
  ex (trans (nth i ends 0%nat) (nth i ends 0%nat)) <= 1 ->
  ex (bigram_on_weights_update (catset_logm cforms (length ends)) starts ends trans
        (nth i ends 0%nat) (nth k starts 0%nat)) =
  (1 - ex (trans (nth i ends 0%nat) (nth i ends 0%nat))) * exp (cat_logprob (nth k cforms []) i).
Proof.
  intros Hs He Hd Hf Hl Hi Hk Hle.
  assert (HL : length (catset_logm cforms (length ends)) = length ends)
    by (unfold catset_logm; rewrite !map_length, eye_length; auto).
  rewrite bigram_entries; auto.
  - f_equal. f_equal. unfold catset_logm. rewrite map_map.
    rewrite (map_nth_lt _ _ _ []) by (rewrite eye_length; lia). rewrite eye_nth by lia.
    unfold lin. rewrite (map_nth_lt _ _ _ []) by lia.
    apply dot_cat_stats_unit; auto. rewrite Forall_forall in Hf. apply Hf. apply nth_In. lia.
  - apply Forall_forall. intros w Hw. unfold catset_logm in Hw. apply in_map_iff in Hw.
    destruct Hw as (x & <- & _). unfold lin. now rewrite map_length.
Qed.

(** Two phones; after phone 0 always comes phone 1 with probability 3/4. *)
Theorem C20_witness_refuted :
  let cf p := [ln (p / (1 - p)); ln (1 - p)] in
  let cforms := [cf (1/4); cf (1/2)] in
  let trans := fun i j : nat => if Nat.eqb i j then Fin (ln (1/2)) else NInf in
  exp (cat_logprob (nth 0 cforms []) 1) = 3/4 /\
  ex (bigram_on_weights_update (catset_logm cforms 2) [0; 2]%nat [1; 3]%nat trans 1%nat 2%nat)
    = (1 - 1/2) * (1/2).
Proof.
  cbv zeta. split.
  - unfold cat_logprob. simpl. rewrite exp_ln by lra. lra.
  - change 1%nat with (nth 0 [1;3]%nat 0%nat) at 2. change 2%nat with (nth 1 [0;2]%nat 0%nat) at 3.
    rewrite (C20_categorical_set_transposed_refuted _ [0;2]%nat [1;3]%nat _ 0 1).
    + unfold cat_logprob. simpl. rewrite exp_plus, !exp_ln by lra. lra.
    + repeat constructor; simpl; intuition lia.
    + repeat constructor; simpl; intuition lia.
    + intros x [<-|[<-|[]]] [|[|[]]]; discriminate.
    + repeat constructor.
    + reflexivity.
    + simpl; lia.
    + simpl; lia.
    + simpl. rewrite exp_ln by lra. lra.
Qed.

(** ** C21: counts of the phones *)
Theorem C21_expected_phone_counts amax p m g order starts ends scale stats v c :
  wf m -> (forall o, In o order -> (o < size m)%nat) -> length order = cg_n g ->
  NoDup ends -> (forall e, In e ends -> (e < cg_n g)%nat) ->
  (forall s, In s starts -> (s < cg_n g)%nat) -> starts <> [] ->
  let ls := frames scale (map (fun o => nth o (denote m) e0) order) stats in
  0 < evidence g ls ->
  hmm_ellh amax m g order true Soft scale stats = Ok (v, c) ->
  exists D D0 row, phoneloop_accumulate p m (cg_n g) order starts ends c stats = Some D /\
    hmm_accumulate m (cg_n g) order c stats = Some D0 /\
    (forall q, q <> p -> dget Nat.eq_dec D q = dget Nat.eq_dec D0 q) /\
    dget Nat.eq_dec D p = Some [row] /\ length row = length starts /\
    (forall k, (S k < length starts)%nat ->
       nth k row 0 = expect g ls (phone_starts ends (nth k starts 0%nat))) /\
    nth (pred (length starts)) row 0 =
      sumf (fun s => expect g ls (phone_starts ends s)) starts.
Proof.
  cbv zeta. intros Hw Ho Hn Hend He Hs Hne Hev H.
  pose proof (soft_accumulate amax m g order scale stats Hw Ho true v c Hev H) as Hacc.
  pose proof (hmm_ellh_soft amax m g order scale stats Hw Ho true v c H) as (posts & lnm & Hp & Hl & _ & Hc).
  unfold reorder in *. set (ls := frames _ _ _) in *.
  unfold phoneloop_accumulate. rewrite Hacc, Hc. cbn [c_trans c_resps].
  set (cnt := phone_counts _ _ _ _).
  assert (Hcl : length cnt = length starts) by apply map_length.
  assert (Hck : forall k, (k < length starts)%nat -> nth k cnt 0 = expect g ls (phone_starts ends (nth k starts 0%nat))).
  { intros k Hk. unfold cnt. apply (phone_counts_expected g ls posts lnm); auto. }
  assert (Hlen : (0 < length starts)%nat) by (destruct starts; [congruence|simpl; lia]).
  do 3 eexists. split; [reflexivity|]. split; [reflexivity|]. split.
  { intros q Hq. rewrite dget_dset. destruct (Nat.eq_dec q p); [contradiction|reflexivity]. }
  split; [rewrite dget_dset; destruct (Nat.eq_dec p p); [reflexivity|contradiction]|].
  split; [rewrite cat_stats_length; auto; intros E; rewrite E in Hcl; simpl in Hcl; lia|]. split.
  - intros k Hk. rewrite cat_stats_nth by lia. rewrite Hcl.
    destruct (Nat.eqb_spec (S k) (length starts)); [lia|]. apply Hck. lia.
  - rewrite cat_stats_nth by lia. rewrite Hcl.
    destruct (Nat.eqb_spec (S (pred (length starts))) (length starts)); [|lia].
    rewrite (rsum_nth cnt), Hcl. unfold sumf at 2. rewrite (map_seq_nth _ starts 0%nat).
    apply sumf_ext. intros k Hk. apply in_seq in Hk. apply Hck. lia.
Qed.

(** A hard path gives the number of phones of the path; alignments give no
    count at all. *)
Theorem C21_hard_path_counts starts ends p k : NoDup ends -> p <> [] -> (k < length starts)%nat ->
  nth k (phone_counts starts ends (hard_trans p) (hd (fun _ => NaN) (map unit_num p))) 0 =
  phone_starts ends (nth k starts 0%nat) p.
Proof. apply phone_counts_hard. Qed.

Theorem C21_alignments_bring_nothing p m n order starts ends resps scale stats D :
  phoneloop_accumulate p m n order starts ends
    {| c_resps := resps; c_trans := None; c_scale := scale |} stats = Some D ->
  dget Nat.eq_dec D p = Some [vzeros (length starts)].
Proof.
  unfold phoneloop_accumulate. destruct (hmm_accumulate _ _ _ _ _); [|discriminate].
  cbn [c_trans]. intros [= <-]. rewrite dget_dset. destruct (Nat.eq_dec p p); [reflexivity|contradiction].
Qed.

Example C21_example :
  phone_starts [1; 3]%nat 2%nat [0; 1; 2; 2; 3; 2; 3]%nat = 2 /\
  phone_starts [1; 3]%nat 0%nat [0; 1; 2; 2; 3; 2; 3]%nat = 1.
Proof. unfold phone_starts, sumf, rsum. simpl. lra. Qed.

(** ** C82: counts of the bigrams *)
Theorem C82_expected_bigram_counts amax p m g order starts ends scale stats v c :
  wf m -> (forall o, In o order -> (o < size m)%nat) -> length order = cg_n g ->
  (forall e, In e ends -> (e < cg_n g)%nat) ->
  (forall s, In s starts -> (s < cg_n g)%nat) -> starts <> [] ->
  let ls := frames scale (map (fun o => nth o (denote m) e0) order) stats in
  0 < evidence g ls ->
  hmm_ellh amax m g order true Soft scale stats = Ok (v, c) ->
  exists D M, bigram_accumulate p m (cg_n g) order starts ends c stats = Ok (Some D) /\
    dget Nat.eq_dec D p = Some M /\ length M = length ends /\
    forall i, (i < length ends)%nat -> length (nth i M []) = length starts /\
      (forall k, (S k < length starts)%nat ->
         nth k (nth i M []) 0 = expect g ls (bigram_count (nth i ends 0%nat) (nth k starts 0%nat))) /\
      nth (pred (length starts)) (nth i M []) 0 =
        sumf (fun s => expect g ls (bigram_count (nth i ends 0%nat) s)) starts.
Proof.
  cbv zeta. intros Hw Ho Hn He Hs Hne Hev H.
  pose proof (soft_accumulate amax m g order scale stats Hw Ho true v c Hev H) as Hacc.
  pose proof (hmm_ellh_soft amax m g order scale stats Hw Ho true v c H) as (posts & lnm & Hp & Hl & _ & Hc).
  unfold reorder in *. set (ls := frames _ _ _) in *.
  unfold bigram_accumulate. rewrite Hacc, Hc. cbn [c_trans].
  assert (Hlen : (0 < length starts)%nat) by (destruct starts; [congruence|simpl; lia]).
  do 2 eexists. split; [reflexivity|].
  split; [rewrite dget_dset; destruct (Nat.eq_dec p p); [reflexivity|contradiction]|].
  split; [apply map_length|]. intros i Hi. rewrite (map_nth_lt _ _ _ 0%nat) by auto.
  set (e := nth i ends 0%nat). assert (Hen : (e < cg_n g)%nat) by (apply He; now apply nth_In).
  set (rows := map _ (trans_posteriors g ls)).
  assert (Hrows : Forall (fun r => length r = length starts) rows).
  { apply Forall_forall. intros r Hr. apply in_map_iff in Hr. destruct Hr as (xi & <- & _).
    rewrite cat_stats_length; [apply map_length|]. destruct starts; [congruence|discriminate]. }
  split; [now apply colsum_length|].
  assert (Hrow : forall xi : nat -> nat -> num, forall k, (k < length starts)%nat ->
    nth k (cat_stats (map (fun s => num_val (xi e s)) starts)) 0 =
    if Nat.eqb (S k) (length starts) then sumf (fun s => num_val (xi e s)) starts
    else num_val (xi e (nth k starts 0%nat))).
  { intros xi k Hk. rewrite cat_stats_nth by (now rewrite map_length). rewrite map_length.
    destruct (Nat.eqb (S k) (length starts)); [reflexivity|]. now rewrite (map_nth_lt _ _ _ 0%nat). }
  split.
  - intros k Hk. rewrite colsum_nth by (auto; lia). unfold rows. rewrite sumf_map.
    rewrite <- (trans_sum g ls e (nth k starts 0%nat)); auto.
    + apply sumf_ext. intros xi _. rewrite Hrow by lia.
      destruct (Nat.eqb_spec (S k) (length starts)); [lia|reflexivity].
    + apply Hs. apply nth_In. lia.
  - rewrite colsum_nth by (auto; lia). unfold rows. rewrite sumf_map.
    rewrite (sumf_ext (fun s => expect g ls (bigram_count e s))
      (fun s => sumf (fun xi => num_val (xi e s)) (trans_posteriors g ls))).
    + rewrite sumf_swap. apply sumf_ext. intros xi _. rewrite Hrow by lia.
      destruct (Nat.eqb_spec (S (pred (length starts))) (length starts)); [reflexivity|lia].
    + intros s Hin. symmetry. apply trans_sum; auto.
Qed.

Example C82_example : bigram_count 1 2 [0; 1; 2; 2; 1; 2]%nat = 2 /\ bigram_count 2 1 [0; 1; 2; 2; 1; 2]%nat = 1.
Proof. unfold bigram_count, sumf, rsum. simpl. lra. Qed.

Theorem C82_alignments_refuted p m n order starts ends resps scale stats :
  bigram_accumulate p m n order starts ends
    {| c_resps := resps; c_trans := None; c_scale := scale |} stats = Err TypeError.
Proof. reflexivity. Qed.

Print Assumptions C16_optimal.
Print Assumptions C17_scaled_posteriors_partial.
Print Assumptions C18_upper_bound_refuted.
Print Assumptions C19_row_stochastic.
Print Assumptions C20_categorical_set_transposed_refuted.
Print Assumptions C21_expected_phone_counts.
Print Assumptions C80_statistics.
Print Assumptions C81_decode.
Print Assumptions C82_expected_bigram_counts.

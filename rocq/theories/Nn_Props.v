(** Neural networks: C49, C96, C97, C98. *)
From Coq Require Import Reals List Arith Bool Ascii String Lia Lra.
From Verif Require Import Prelude Vec Gibbs Mat Dist_Spec Nn_Model Nn_Spec Nn_Proofs.
Import ListNotations.
Local Open Scope R_scope.

(** ** C49 *)
(** Whatever the drawn connections, weights, activation and flow parameters. *)
Theorem C49_autoregressive : forall act net flow d x x', agree d x x' ->
  nth d (fst (arnet_fwd act net x flow)) 0 = nth d (fst (arnet_fwd act net x' flow)) 0 /\
  nth d (snd (arnet_fwd act net x flow)) 0 = nth d (snd (arnet_fwd act net x' flow)) 0.
Proof. exact arnet_autoregressive. Qed.

(** No connection is lost: exactly the allowed ones are open. *)
Theorem C49_masks : forall ordering conns i j,
  ((i < List.length conns)%nat -> (j < List.length ordering)%nat ->
    nth j (nth i (create_mask ordering conns) []) 0 = if (nth j ordering 0 <=? nth i conns 0)%nat then 1 else 0) /\
  ((i < List.length ordering)%nat -> (j < List.length conns)%nat ->
    nth j (nth i (create_final_mask ordering conns) []) 0 = if (nth j conns 0 <? nth i ordering 0)%nat then 1 else 0).
Proof. intros. split; [apply create_mask_nth|apply create_final_mask_nth]. Qed.

Theorem C49_variances : forall act net x flow,
  Forall (fun v => / 100 < v < 1 + / 100) (snd (arnet_fwd act net x flow)).
Proof. exact arnet_variance. Qed.

Theorem C49_build : forall dim draws width weights flow mean logvar,
  (* nothing can be drawn in dimension one, and a hidden layer is required *)
  ((dim <= 1)%nat -> (0 < width)%nat -> build_arnet dim draws width weights flow mean logvar = Err IndexError) /\
  (build_arnet dim [] width weights flow mean logvar = Err IndexError) /\
  ((2 <= dim)%nat -> draws <> [] ->
   exists net, build_arnet dim draws width weights flow mean logvar = Ok net /\ an_dim net = dim /\
     an_layers net = combine draws weights /\ an_flow net = flow /\ an_mean net = mean /\ an_logvar net = logvar).
Proof.
  intros dim draws width weights flow mean logvar. split; [|split].
  - intros H Hw. unfold build_arnet. destruct draws as [|c draws]; [now rewrite andb_false_l|].
    rewrite (proj2 (Nat.ltb_lt 0 width)) by auto. rewrite (proj2 (Nat.eqb_eq (dim - 1) 0)) by lia. reflexivity.
  - unfold build_arnet. reflexivity.
  - intros H Hd. unfold build_arnet. rewrite (proj2 (Nat.eqb_neq (dim - 1) 0)) by lia. rewrite andb_false_r.
    destruct draws; [congruence|]. eexists. split; [reflexivity|]. cbn. auto.
Qed.

(** Two dimensions, one hidden unit connected to input 0: the second output
    uses the first input, the first output is constant. *)
Definition ex_net : arnet := {|
  an_dim := 2; an_layers := [([0]%nat, {| weight := [[1; 5]]; bias := [0] |})]; an_flow := None;
  an_mean := {| weight := [[3]; [1]]; bias := [7; 0] |};
  an_logvar := {| weight := [[3]; [0]]; bias := [0; 0] |} |}.
Example C49_ex : forall a b,
  let s := / 100 + / 2 in
  arnet_fwd (fun x => x) ex_net [a; b] [] = ([(1 - s) * 7; (1 - s) * a], [s; s]).
Proof.
  intros a b s. assert (E : sigmoid 0 = / 2).
  { unfold sigmoid. rewrite Ropp_0, exp_0. reflexivity. }
  assert (Z : forall y, y = 0 -> / 100 + sigmoid y = s) by (intros y ->; unfold s; now rewrite E).
  unfold arnet_fwd, ar_normal_fwd, masked_fwd, linear_fwd, dot, vmul. cbn -[sigmoid].
  rewrite !Z by (unfold dot, vmul; cbn; ring). unfold dot, vmul. cbn. f_equal. f_equal; [ring|]. f_equal. ring.
Qed.

(** ** C96: inverse auto-regressive flow *)
Theorem C96_network_steps : forall act net flow, wf_arnet net ->
  autoregressive (an_dim net) (fun x => arnet_fwd act net x flow).
Proof.
  intros act net flow Hw x Hx. destruct (arnet_lengths act net x flow Hw) as (L1 & L2).
  split; [exact L1|]. split; [exact L2|]. split.
  - eapply Forall_impl; [|apply arnet_variance]. simpl. intros. lra.
  - intros x' d Ha. now apply arnet_autoregressive.
Qed.

Theorem C96_step_is_a_bijection : forall n s, autoregressive n s ->
  (forall x, List.length x = n -> List.length (flow_step s x) = n) /\
  (forall x x', List.length x = n -> List.length x' = n -> flow_step s x = flow_step s x' -> x = x') /\
  (forall y, List.length y = n -> exists x, List.length x = n /\ flow_step s x = y).
Proof.
  intros n s H. split; [|split].
  - intros. now apply flow_step_length.
  - intros. now apply (flow_step_injective n s).
  - intros. now apply flow_step_surjective.
Qed.

(** The Jacobian is triangular; its log-determinant is half the sum of the
    log-variances. *)
Theorem C96_jacobian : forall n s x J, autoregressive n s -> List.length x = n ->
  is_jacobian n (flow_step s) x J ->
  lower n J /\ 0 < ldet n J /\ ln (Rabs (ldet n J)) = / 2 * rsum (map ln (snd (s x))).
Proof.
  intros n s x J H Hx HJ. split; [apply (jacobian_lower n s x J H Hx HJ)|]. now apply jacobian_logdet.
Qed.

Lemma ln_gauss_pdf x m v : 0 < v -> ln (gauss_pdf x m (/ v)) = - / 2 * (ln v + (x - m) ^ 2 / v + ln (2 * PI)).
Proof.
  intros Hv. assert (P := PI_RGT_0). assert (Hi := Rinv_0_lt_compat v Hv). unfold gauss_pdf.
  assert (Q : 0 < / v / (2 * PI)) by (apply Rdiv_lt_0_compat; lra).
  rewrite ln_mult by (auto using exp_pos, sqrt_lt_R0). rewrite ln_exp, ln_sqrt by auto.
  unfold Rdiv at 1. rewrite ln_mult, !ln_Rinv by (try apply Rinv_0_lt_compat; lra). field. lra.
Qed.

Lemma sumf_as_map2 (f : R -> R -> R) (l m : list R) n : List.length l = n -> List.length m = n ->
  rsum (map2 f l m) = sumf (fun d => f (nth d l 0) (nth d m 0)) (seq 0 n).
Proof.
  intros H1 H2. rewrite rsum_nth, map2_length, H1, H2, Nat.min_id. apply sumf_ext. intros d Hd. apply in_seq in Hd.
  now rewrite (map2_nth f _ _ d 0 0 0) by lia.
Qed.
Lemma sumf_as_map (f : R -> R) (l : list R) n : List.length l = n ->
  rsum (map f l) = sumf (fun d => f (nth d l 0)) (seq 0 n).
Proof.
  intros H. rewrite rsum_nth, map_length, H. apply sumf_ext. intros d Hd. apply in_seq in Hd.
  now rewrite (map_nth_lt f _ _ 0 0) by lia.
Qed.

Lemma normal_llh_gauss x m v n : List.length x = n -> List.length m = n -> List.length v = n ->
  Forall (fun y => 0 < y) v -> normal_llh x m v = gauss_diag x m v.
Proof.
  intros H1 H2 H3 Hv. unfold normal_llh, gauss_diag. rewrite H1, H2.
  rewrite (sumf_ext (fun d => ln _) (fun d => - / 2 * (ln (nth d v 0) + (nth d x 0 - nth d m 0) ^ 2 / nth d v 0 + ln (2 * PI)))).
  - rewrite sumf_scal_l, !sumf_plus, sumf_const, seq_length. f_equal. f_equal. f_equal.
    + now apply sumf_as_map.
    + rewrite (sumf_as_map2 (fun dm v => dm ^ 2 / v) _ _ n) by (unfold vsub; rewrite ?map2_length; lia).
      apply sumf_ext. intros d Hd. apply in_seq in Hd. unfold vsub. now rewrite (map2_nth Rminus _ _ d 0 0 0) by lia.
  - intros d Hd. apply in_seq in Hd. apply ln_gauss_pdf. rewrite Forall_forall in Hv. apply Hv, nth_In. lia.
Qed.

Lemma base_sample_nth m v z n d : List.length m = n -> List.length v = n -> List.length z = n -> (d < n)%nat ->
  nth d (vadd m (vmul (map sqrt v) z)) 0 = nth d m 0 + sqrt (nth d v 0) * nth d z 0.
Proof.
  intros H1 H2 H3 Hd. unfold vadd, vmul.
  rewrite (map2_nth Rplus _ _ d 0 0 0) by (rewrite ?map2_length, ?map_length; lia).
  rewrite (map2_nth Rmult _ _ d 0 0 0) by (rewrite ?map_length; lia).
  now rewrite (map_nth_lt sqrt _ _ 0 0) by lia.
Qed.

Lemma base_llh m v z n : List.length m = n -> List.length v = n -> List.length z = n -> Forall (fun y => 0 < y) v ->
  - / 2 * (rsum (map (fun y => y ^ 2) z) + INR (List.length m) * ln (2 * PI)) - / 2 * rsum (map ln v) =
  gauss_diag (vadd m (vmul (map sqrt v) z)) m v.
Proof.
  intros H1 H2 H3 Hv. unfold gauss_diag.
  assert (L : List.length (vadd m (vmul (map sqrt v) z)) = n) by (unfold vadd, vmul; rewrite !map2_length, map_length; lia).
  rewrite L, H1.
  rewrite (sumf_ext (fun d => ln _) (fun d => - / 2 * (ln (nth d v 0) + (nth d z 0) ^ 2 + ln (2 * PI)))).
  - rewrite sumf_scal_l, !sumf_plus, sumf_const, seq_length.
    rewrite (sumf_as_map (fun y => y ^ 2) z n), (sumf_as_map ln v n) by auto. ring.
  - intros d Hd. apply in_seq in Hd. rewrite (base_sample_nth m v z n) by lia.
    assert (P : 0 < nth d v 0) by (rewrite Forall_forall in Hv; apply Hv, nth_In; lia).
    rewrite ln_gauss_pdf by auto. f_equal. f_equal. f_equal.
    replace (nth d m 0 + sqrt (nth d v 0) * nth d z 0 - nth d m 0) with (sqrt (nth d v 0) * nth d z 0) by ring.
    rewrite Rpow_mult_distr. replace (sqrt (nth d v 0) ^ 2) with (nth d v 0) by (simpl; rewrite Rmult_1_r, sqrt_sqrt; lra).
    field. lra.
Qed.

Lemma iaf_loop_density n : forall steps x l y l', Forall (autoregressive n) steps -> List.length x = n ->
  flow_density n steps x l y l' -> iaf_loop steps x l = (y, l').
Proof.
  induction steps as [|s steps IH]; intros x l y l' Hs Hx H; inversion H; subst; [reflexivity|].
  inversion Hs as [|? ? Hs1 Hs2]; subst. cbn [iaf_loop].
  match goal with HJ : is_jacobian _ _ _ ?J |- _ => destruct (jacobian_logdet _ s x J Hs1 eq_refl HJ) as (_ & E) end.
  rewrite E in *.
  replace (l + - / 2 * rsum (map ln (snd (s x)))) with (l - / 2 * rsum (map ln (snd (s x)))) by ring.
  apply IH; auto. now apply flow_step_length.
Qed.

(** Sampling returns the log-density of the sample: that of the Gaussian base
    sample, corrected by the log-determinant of every step. *)
Theorem C96_density_partial : forall n steps means variances noise y l,
  Forall (autoregressive n) steps -> List.length means = n -> List.length variances = n -> List.length noise = n ->
  Forall (fun v => 0 < v) variances ->
  let base := vadd means (vmul (map sqrt variances) noise) in
  flow_density n steps base (gauss_diag base means variances) y l ->
  iaf_samples false steps means variances noise = (y, l).
Proof.
  intros n steps means variances noise y l Hs H1 H2 H3 Hv base H. unfold iaf_samples.
  rewrite (base_llh means variances noise n) by auto. fold base.
  apply (iaf_loop_density n); auto. unfold base, vadd, vmul. rewrite !map2_length, map_length. lia.
Qed.

(** With use_mean the constant of the Gaussian is missing. *)
Theorem C96_use_mean_refuted : forall n means variances noise,
  List.length means = n -> List.length variances = n -> Forall (fun v => 0 < v) variances ->
  let '(y, l) := iaf_samples true [] means variances noise in
  y = means /\ l = gauss_diag means means variances + INR n / 2 * ln (2 * PI) /\
  ((0 < n)%nat -> l <> gauss_diag means means variances).
Proof.
  intros n means variances noise H1 H2 Hv. unfold iaf_samples. cbn [iaf_loop].
  assert (Z : List.length (repeat 0 n) = n) by apply repeat_length.
  assert (B := base_llh means variances (repeat 0 n) n H1 H2 Z Hv).
  assert (E : vadd means (vmul (map sqrt variances) (repeat 0 n)) = means).
  { apply vec_ext.
    - unfold vadd, vmul. rewrite !map2_length, map_length. lia.
    - intros k Hk. unfold vadd, vmul in Hk. rewrite !map2_length, map_length in Hk.
      rewrite (base_sample_nth means variances (repeat 0 n) n) by lia. rewrite nth_repeat. ring. }
  rewrite E in B.
  assert (S0 : rsum (map (fun y => y ^ 2) (repeat 0 n)) = 0).
  { clear. induction n; simpl in *; [reflexivity|]. rewrite IHn. ring. }
  rewrite S0, H1 in B. split; [reflexivity|].
  assert (P := PI_RGT_0). assert (P2 := PI2_1). assert (LP : 0 < ln (2 * PI)).
  { rewrite <- ln_1. apply ln_increasing; lra. }
  split; [lra|]. intros Hn. assert (0 < INR n) by (apply lt_0_INR; auto).
  assert (0 < INR n / 2 * ln (2 * PI)) by (apply Rmult_lt_0_compat; lra). lra.
Qed.

(** One step (a, b) -> (a, a + 2b) *)
Example C96_ex :
  let s := fun x : list R => ([0; nth 0 x 0], [1; 4]) in
  autoregressive 2 s /\
  is_jacobian 2 (flow_step s) [3; 5] (fun d j => match d, j with O, O => 1 | O, _ => 0 | _, O => 1 | _, _ => 2 end) /\
  flow_step s [3; 5] = [3; 13].
Proof.
  intros s. assert (S1 : sqrt 1 = 1) by apply sqrt_1. assert (S4 : sqrt 4 = 2).
  { replace 4 with (2 * 2) by ring. apply sqrt_square. lra. }
  split; [|split].
  - intros x Hx. split; [reflexivity|]. split; [reflexivity|]. split; [repeat constructor; lra|].
    intros x' d (_ & A). split; [|reflexivity]. destruct d as [|[|d]]; [reflexivity| |now destruct d].
    simpl. apply A. lia.
  - assert (F : forall a b, flow_step s [a; b] = [0 + 1 * a; a + 2 * b]).
    { intros a b. unfold flow_step, s. simpl. rewrite S1, S4. reflexivity. }
    assert (K : forall c0 c1 p, derivable_pt_lim (fun t => c0 + c1 * t) p c1).
    { intros c0 c1 p. assert (D : derivable_pt_lim (plus_fct (fct_cte c0) (mult_real_fct c1 id)) p (0 + c1 * 1)).
      { apply derivable_pt_lim_plus; [apply derivable_pt_lim_const|]. apply derivable_pt_lim_scal, derivable_pt_lim_id. }
      replace (0 + c1 * 1) with c1 in D by ring. exact D. }
    intros d j Hd Hj. destruct d as [|[|d]], j as [|[|j]]; try lia; unfold upd; cbn [firstn skipn app nth].
    + apply (derivable_pt_lim_ext (fun t => 0 + 1 * t)); [intros t; rewrite F; reflexivity|]. apply K.
    + apply (derivable_pt_lim_ext (fun t => 3 + 0 * t)); [intros t; rewrite F; cbn [nth]; ring|]. apply K.
    + apply (derivable_pt_lim_ext (fun t => 10 + 1 * t)); [intros t; rewrite F; cbn [nth]; ring|]. apply K.
    + apply (derivable_pt_lim_ext (fun t => 3 + 2 * t)); [intros t; rewrite F; cbn [nth]; ring|]. apply K.
  - unfold flow_step, s, vadd, vmul. cbn. rewrite S1, S4. f_equal; [ring|]. f_equal. ring.
Qed.

(** ** C97: probabilistic layers *)
Theorem C97_normal_llh : forall x m v n, List.length x = n -> List.length m = n -> List.length v = n ->
  Forall (fun y => 0 < y) v ->
  normal_llh x m v = gauss_diag x m v /\
  (* identity covariance *)
  identity_llh x m = gauss_diag x m (repeat 1 n).
Proof.
  intros x m v n H1 H2 H3 Hv. split; [now apply (normal_llh_gauss x m v n)|].
  assert (L1 : List.length (repeat 1 n) = n) by apply repeat_length.
  rewrite <- (normal_llh_gauss x m (repeat 1 n) n); auto.
  - unfold identity_llh, normal_llh. f_equal.
    replace (rsum (map ln (repeat 1 n))) with 0.
    + rewrite Rplus_0_l. f_equal. rewrite (sumf_as_map _ _ n), (sumf_as_map2 _ _ _ n) by (auto; unfold vsub; rewrite map2_length; lia).
      apply sumf_ext. intros d Hd. apply in_seq in Hd.
      rewrite (nth_indep (repeat 1 n) 0 1), nth_repeat by (rewrite repeat_length; lia). field.
    + clear. induction n; [reflexivity|]. cbn [repeat map rsum]. rewrite <- IHn, ln_1. ring.
  - apply Forall_forall. intros y Hy. apply repeat_spec in Hy. lra.
Qed.

(** Samples come with their own log-density; the mean is the most likely value. *)
Theorem C97_samples : forall um m v z x n, List.length m = n -> List.length v = n -> List.length z = n -> List.length x = n ->
  Forall (fun y => 0 < y) v ->
  let '(s, l) := diag_samples um m v z in
  List.length s = n /\ l = gauss_diag s m v /\
  (um = true -> s = m /\ gauss_diag x m v <= l) /\
  (um = false -> forall d, (d < n)%nat -> nth d s 0 = nth d m 0 + sqrt (nth d v 0) * nth d z 0).
Proof.
  intros um m v z x n H1 H2 H3 H4 Hv. unfold diag_samples.
  set (s := if um then m else vadd m (vmul (map sqrt v) z)).
  assert (L : List.length s = n) by (unfold s; destruct um; auto; unfold vadd, vmul; rewrite !map2_length, map_length; lia).
  split; [exact L|]. split; [now apply (normal_llh_gauss s m v n)|]. split.
  - intros ->. split; [reflexivity|]. rewrite (normal_llh_gauss _ m v n) by auto. unfold s, gauss_diag. rewrite H1, H4.
    apply sumf_le. intros d Hd. apply in_seq in Hd.
    assert (P : 0 < nth d v 0) by (rewrite Forall_forall in Hv; apply Hv, nth_In; lia).
    rewrite !ln_gauss_pdf by auto.
    assert (0 <= (nth d x 0 - nth d m 0) ^ 2 / nth d v 0).
    { apply Rmult_le_pos; [apply pow2_ge_0|]. left. now apply Rinv_0_lt_compat. }
    replace ((nth d m 0 - nth d m 0) ^ 2 / nth d v 0) with 0 by (field; lra). lra.
  - intros -> d Hd. unfold s. now apply (base_sample_nth m v z n).
Qed.

Theorem C97_variances_positive : forall mean logvar x,
  (forall r, 0 < softplus20 r) /\
  Forall (fun v => 0 < v) (snd (diag_fwd softplus20 mean logvar x)) /\
  (forall n k, wf_linear mean n k -> wf_linear logvar 1 k ->
     exists v, 0 < v /\ snd (iso_fwd softplus20 mean logvar x) = repeat v n).
Proof.
  intros mean logvar x.
  assert (P : forall r, 0 < softplus20 r).
  { intros r. unfold softplus20. destruct (Rlt_dec 20 r); [lra|]. assert (E := exp_pos r).
    rewrite <- ln_1. apply ln_increasing; lra. }
  split; [exact P|]. split.
  - unfold diag_fwd. cbn [snd]. apply Forall_forall. intros v Hv. apply in_map_iff in Hv. destruct Hv as (r & <- & _). apply P.
  - intros n k (M1 & _ & M2) (V1 & _ & V2). unfold iso_fwd. cbn [snd].
    destruct (linear_fwd logvar x) as [|r rs] eqn:E.
    { assert (X := f_equal (@List.length R) E). rewrite linear_fwd_length in X. simpl in X. lia. }
    exists (softplus20 r * 1). split; [rewrite Rmult_1_r; apply P|].
    assert (L : List.length (linear_fwd mean x) = n) by (rewrite linear_fwd_length; lia).
    rewrite <- L. clear. cbn [map]. induction (linear_fwd mean x) as [|y l IH]; [reflexivity|].
    cbn [map List.length repeat]. now rewrite IH.
Qed.

Lemma linear_fwd_affine l x n k i : wf_linear l n k -> List.length x = k -> (i < n)%nat ->
  nth i (linear_fwd l x) 0 = affine l x i.
Proof.
  intros (L1 & F & L2) Lx Hi. unfold linear_fwd, affine. rewrite (map2_nth _ _ _ _ [] 0 0) by lia.
  f_equal. rewrite Forall_forall in F. assert (L : List.length (nth i (weight l) []) = List.length x).
  { rewrite Lx. apply F, nth_In. lia. }
  rewrite dot_nth by exact L. now rewrite L.
Qed.

Lemma softplus20_close r : ln (1 + exp r) - exp (- 20) <= softplus20 r <= ln (1 + exp r).
Proof.
  assert (E20 := exp_pos (- 20)). assert (Er := exp_pos r). assert (En := exp_pos (- r)).
  unfold softplus20. destruct (Rlt_dec 20 r) as [H|H]; [|lra].
  assert (E : ln (1 + exp r) = r + ln (1 + exp (- r))).
  { rewrite <- (ln_exp r) at 2. rewrite <- ln_mult by lra. f_equal. rewrite Rmult_plus_distr_l, <- exp_plus.
    rewrite Rplus_opp_r, exp_0. ring. }
  rewrite E. assert (0 <= ln (1 + exp (- r)) <= exp (- 20)); [|lra]. split.
  - rewrite <- ln_1. left. apply ln_increasing; lra.
  - apply Rle_trans with (exp (- r)).
    + rewrite <- (ln_exp (exp (- r))) at 2. left. apply ln_increasing; [lra|]. apply exp_ineq1; lra.
    + left. apply exp_increasing. lra.
Qed.

(** The first layer gives the means; the second one the variances, through a
    softplus (up to the cut at 20). *)
Theorem C97_outputs : forall mean logvar x n k i,
  wf_linear mean n k -> wf_linear logvar n k -> List.length x = k -> (i < n)%nat ->
  nth i (fst (diag_fwd softplus20 mean logvar x)) 0 = affine mean x i /\
  let sp := ln (1 + exp (affine logvar x i)) in
  sp - exp (- 20) <= nth i (snd (diag_fwd softplus20 mean logvar x)) 0 <= sp.
Proof.
  intros mean logvar x n k i Wm Wv Lx Hi. unfold diag_fwd. cbn [fst snd]. split.
  - now apply (linear_fwd_affine mean x n k).
  - cbv zeta. rewrite (map_nth_lt _ _ _ 0) by (rewrite linear_fwd_length; destruct Wv as (? & _ & ?); lia).
    rewrite (linear_fwd_affine logvar x n k) by auto. apply softplus20_close.
Qed.

Theorem C97_isotropic_outputs : forall mean logvar x n k i,
  wf_linear mean n k -> wf_linear logvar 1 k -> List.length x = k -> (i < n)%nat ->
  nth i (fst (iso_fwd softplus20 mean logvar x)) 0 = affine mean x i /\
  let sp := ln (1 + exp (affine logvar x 0)) in
  sp - exp (- 20) <= nth i (snd (iso_fwd softplus20 mean logvar x)) 0 <= sp.
Proof.
  intros mean logvar x n k i Wm Wv Lx Hi. unfold iso_fwd. cbn [fst snd]. split.
  - now apply (linear_fwd_affine mean x n k).
  - cbv zeta. rewrite (map_nth_lt _ _ _ 0) by (rewrite linear_fwd_length; destruct Wm as (? & _ & ?); lia).
    rewrite <- (linear_fwd_affine logvar x 1 k) by auto.
    assert (L : List.length (linear_fwd logvar x) = 1%nat) by (rewrite linear_fwd_length; destruct Wv as (? & _ & ?); lia).
    destruct (linear_fwd logvar x) as [|r [|]]; try discriminate. cbn [map nth]. rewrite Rmult_1_r. apply softplus20_close.
Qed.

(** The Bernoulli likelihoods of all binary vectors add up to (1 + 2 eps)^d. *)
Theorem C97_bernoulli : forall eps means, 0 < eps -> Forall (fun m => 0 <= m <= 1) means ->
  sumf (fun x => exp (bernoulli_llh eps x means)) (binary (List.length means)) = (1 + 2 * eps) ^ (List.length means).
Proof.
  intros eps means He H. induction H as [|m means Hm Hms IH].
  - unfold sumf, bernoulli_llh. simpl. rewrite exp_0. ring.
  - cbn [List.length binary pow]. rewrite sumf_app.
    assert (B : forall b (x : list R), exp (bernoulli_llh eps (b :: x) (m :: means)) =
       exp (b * ln (eps + m) + (1 - b) * ln (eps + 1 - m)) * exp (bernoulli_llh eps x means)).
    { intros b x. unfold bernoulli_llh. cbn [map2 rsum]. apply exp_plus. }
    assert (S : forall b, sumf (fun x => exp (bernoulli_llh eps x (m :: means))) (map (cons b) (binary (List.length means))) =
       exp (b * ln (eps + m) + (1 - b) * ln (eps + 1 - m)) * (1 + 2 * eps) ^ List.length means).
    { intros b. rewrite <- IH, <- sumf_scal_l. unfold sumf. rewrite map_map. f_equal. apply map_ext. intros x. apply B. }
    rewrite !S.
    replace (0 * ln (eps + m) + (1 - 0) * ln (eps + 1 - m)) with (ln (eps + 1 - m)) by ring.
    replace (1 * ln (eps + m) + (1 - 1) * ln (eps + 1 - m)) with (ln (eps + m)) by ring.
    rewrite !exp_ln by lra. ring.
Qed.

(** Residual networks keep the dimension; zero weights and an activation
    vanishing at 0 give the identity. *)
Theorem C97_residual : forall act blocks x n,
  Forall (fun b => exists w, wf_linear (fst b) w n /\ wf_linear (snd b) n w) blocks -> List.length x = n ->
  List.length (residual_net act blocks x) = n.
Proof.
  intros act blocks x n H. revert x. induction H as [|b blocks (w & (A1 & _ & A2) & (B1 & _ & B2)) Hb IH]; intros x Hx; [exact Hx|].
  unfold residual_net. cbn [fold_left]. apply IH. unfold residual_block, vadd.
  rewrite map2_length, map_length, linear_fwd_length. lia.
Qed.

(** One block: the input plus two layers, the first one first. *)
Theorem C97_residual_block : forall act l1 l2 x n w i,
  wf_linear l1 w n -> wf_linear l2 n w -> List.length x = n -> (i < n)%nat ->
  nth i (residual_net act [(l1, l2)] x) 0 =
    act (sumf (fun j => nth j (nth i (weight l2) []) 0 * act (affine l1 x j)) (seq 0 w) + nth i (bias l2) 0) + nth i x 0.
Proof.
  intros act l1 l2 x n w i W1 W2 Lx Hi. unfold residual_net. cbn [fold_left fst snd]. unfold residual_block, vadd.
  assert (Lh : List.length (map act (linear_fwd l1 x)) = w).
  { rewrite map_length, linear_fwd_length. destruct W1 as (? & _ & ?). lia. }
  assert (Lo : List.length (linear_fwd l2 (map act (linear_fwd l1 x))) = n).
  { rewrite linear_fwd_length. destruct W2 as (? & _ & ?). lia. }
  rewrite (map2_nth _ _ _ _ 0 0 0) by (rewrite ?map_length; lia). f_equal.
  rewrite (map_nth_lt _ _ _ 0) by lia. f_equal.
  rewrite (linear_fwd_affine l2 _ n w) by auto. unfold affine at 1. rewrite Lh. f_equal.
  apply sumf_ext. intros j Hj. apply in_seq in Hj. f_equal.
  rewrite (map_nth_lt _ _ _ 0) by (rewrite linear_fwd_length; destruct W1 as (? & _ & ?); lia).
  f_equal. apply (linear_fwd_affine l1 x w n); auto; lia.
Qed.

Example C97_ex : bernoulli_llh (1/10) [1; 0] [1/2; 1/4] = ln (6/10) + ln (85/100).
Proof.
  unfold bernoulli_llh. simpl. replace (1 / 10 + 1 / 2) with (6 / 10) by lra. replace (1 / 10 + 1 - 1 / 4) with (85 / 100) by lra. ring.
Qed.

(** ** C98: description strings *)
Lemma plain_not (c : ascii) s : plain s -> c = ":"%char \/ c = ";"%char \/ c = "="%char -> Forall (fun a => a <> c) s.
Proof. intros H Hc. eapply Forall_impl; [|exact H]. simpl. intros a (_ & A & B & C). destruct Hc as [-> | [-> | ->] ]; auto. Qed.
Lemma plain_filter s : plain s -> filter (fun c => negb (is_space c)) s = s.
Proof. induction 1 as [|c s (A & _) Hs IH]; [reflexivity|]. simpl. rewrite A. simpl. now rewrite IH. Qed.

Lemma filter_join sep l : is_space sep = false -> Forall (fun s => filter (fun c => negb (is_space c)) s = s) l ->
  filter (fun c => negb (is_space c)) (join sep l) = join sep l.
Proof.
  intros Hs H. induction H as [|p l Hp Hl IH]; [reflexivity|]. destruct l as [|q l]; [exact Hp|].
  change (join sep (p :: q :: l)) with (p ++ sep :: join sep (q :: l)). rewrite filter_app. cbn [filter]. rewrite Hs.
  cbn [negb]. now rewrite Hp, IH.
Qed.

Lemma render_nospace name kwargs sep : plain name -> Forall (fun kv => plain (fst kv) /\ plain (snd kv)) kwargs ->
  is_space sep = false -> filter (fun c => negb (is_space c)) (render name kwargs sep) = render name kwargs sep.
Proof.
  intros Hn Hk Hs. unfold render. destruct kwargs as [|kv kwargs]; [now apply plain_filter|].
  rewrite filter_app, plain_filter by auto. cbn [filter]. f_equal. change (negb (is_space ":"%char)) with true. cbn iota. f_equal.
  apply filter_join; auto. apply Forall_forall. intros s Hin. apply in_map_iff in Hin. destruct Hin as (x & <- & Hx).
  rewrite Forall_forall in Hk. destruct (Hk x Hx) as (P1 & P2). rewrite filter_app, plain_filter by auto. cbn [filter].
  change (negb (is_space "="%char)) with true. cbn iota. now rewrite plain_filter.
Qed.

Lemma render_has_colon name kv kwargs sep : existsb (Ascii.eqb ":") (render name (kv :: kwargs) sep) = true.
Proof. unfold render. rewrite existsb_app. cbn [existsb]. rewrite Ascii.eqb_refl. apply orb_true_r. Qed.

Lemma join_not c sep l : sep <> c -> Forall (fun s => Forall (fun a => a <> c) s) l -> Forall (fun a => a <> c) (join sep l).
Proof.
  intros Hs H. induction H as [|p l Hp Hl IH]; [constructor|]. destruct l as [|q l]; [exact Hp|].
  change (join sep (p :: q :: l)) with (p ++ sep :: join sep (q :: l)). apply Forall_app. split; auto.
Qed.

Lemma args_not_colon kwargs : Forall (fun kv => plain (fst kv) /\ plain (snd kv)) kwargs ->
  Forall (fun s => Forall (fun a => a <> ":"%char) s) (map (fun kv => fst kv ++ "="%char :: snd kv) kwargs).
Proof.
  intros Hk. apply Forall_forall. intros s Hin. apply in_map_iff in Hin. destruct Hin as (x & <- & Hx).
  rewrite Forall_forall in Hk. destruct (Hk x Hx) as (P1 & P2). apply Forall_app. split; [apply plain_not; auto|].
  constructor; [discriminate|]. apply plain_not; auto.
Qed.

Lemma dict_set_new k v d : ~ In k (map fst d) -> dict_set k v d = d ++ [(k, v)].
Proof.
  induction d as [|[k' v'] d IH]; intros H; [reflexivity|]. cbn [dict_set app].
  destruct (str_eqb k k') eqn:E; [apply str_eqb_eq in E; subst; destruct H; now left|].
  rewrite IH; auto. intros Hin. apply H. now right.
Qed.

(** Any name and distinct keyword arguments come back. *)
Theorem C98_roundtrip : forall name kwargs, plain name ->
  Forall (fun kv => plain (fst kv) /\ plain (snd kv)) kwargs -> NoDup (map fst kwargs) ->
  parse_element (render name kwargs ";") = Ok (name, kwargs).
Proof.
  intros name kwargs Hn Hk Hd. unfold parse_element. rewrite render_nospace by auto.
  destruct kwargs as [|kv kwargs].
  - unfold render. replace (existsb (Ascii.eqb ":") name) with false; [reflexivity|].
    symmetry. apply not_true_is_false. intros E. apply existsb_exists in E. destruct E as (c & Hc & Ec).
    apply Ascii.eqb_eq in Ec. subst. unfold plain in Hn. rewrite Forall_forall in Hn. apply Hn in Hc. tauto.
  - rewrite render_has_colon. remember (kv :: kwargs) as kw eqn:Ekw. assert (Hne : kw <> []) by (subst; discriminate).
    assert (E : render name kw ";" = name ++ ":"%char :: join ";" (map (fun kv => fst kv ++ "="%char :: snd kv) kw))
      by (subst; reflexivity).
    rewrite E, split_on_app by (apply plain_not; auto).
    rewrite (split_on_none ":"%char) by (apply join_not; [discriminate|now apply args_not_colon]).
    rewrite split_join.
    + enough (X : forall d0, (forall k, In k (map fst kw) -> ~ In k (map fst d0)) ->
        foldM (fun d arg => match split_on "=" arg with [k; v] => Ok (dict_set k v d) | _ => Err ValueError end)
          (map (fun kv => fst kv ++ "="%char :: snd kv) kw) d0 = Ok (d0 ++ kw)).
      { rewrite X by (intros k _ []). reflexivity. }
      clear -Hk Hd. induction kw as [|[k v] kw IH]; intros d0 H0; [simpl; now rewrite app_nil_r|].
      inversion Hk as [|? ? (P1 & P2) Hk']; subst. inversion Hd as [|? ? Hnin Hd']; subst. cbn [fst snd] in *.
      cbn [map foldM]. rewrite split_on_app by (apply plain_not; auto).
      rewrite split_on_none by (apply plain_not; auto). cbn [bindr].
      rewrite dict_set_new by (apply H0; now left). rewrite IH; auto.
      * now rewrite <- app_assoc.
      * intros k' Hk'' Hin. rewrite map_app in Hin. apply in_app_or in Hin. destruct Hin as [Hin|[Hin|[]]].
        -- apply (H0 k'); [now right|exact Hin].
        -- cbn in Hin. now subst.
    + intros X. apply map_eq_nil in X. auto.
    + apply Forall_forall. intros s Hin. apply in_map_iff in Hin. destruct Hin as (x & <- & Hx).
      rewrite Forall_forall in Hk. destruct (Hk x Hx) as (P1 & P2). apply Forall_app. split; [apply plain_not; auto|].
      constructor; [discriminate|]. apply plain_not; auto.
Qed.

(** White space anywhere is ignored. *)
Theorem C98_white_space : forall s s', filter (fun c => negb (is_space c)) s = filter (fun c => negb (is_space c)) s' ->
  parse_element s = parse_element s'.
Proof. intros s s' H. unfold parse_element. now rewrite H. Qed.

(** The separator announced in the documentation, ",", is not understood. *)
Lemma split_on_two c p q r : Forall (fun a => a <> c) p -> Forall (fun a => a <> c) q ->
  (3 <= List.length (split_on c (p ++ c :: q ++ c :: r)))%nat.
Proof.
  intros Hp Hq. rewrite !split_on_app by auto. cbn [List.length].
  assert (1 <= List.length (split_on c r))%nat; [|lia].
  destruct r as [|a r]; [simpl; lia|]. cbn [split_on]. destruct (Ascii.eqb a c); [simpl; lia|].
  destruct (split_on c r); simpl; lia.
Qed.

Theorem C98_documented_separator_refuted : forall name kv1 kv2 kwargs, plain name ->
  Forall (fun kv => plain (fst kv) /\ plain (snd kv)) (kv1 :: kv2 :: kwargs) ->
  parse_element (render name (kv1 :: kv2 :: kwargs) ",") = Err ValueError.
Proof.
  intros name kv1 kv2 kwargs Hn Hk. unfold parse_element. rewrite render_nospace by auto. rewrite render_has_colon.
  set (kw := kv1 :: kv2 :: kwargs) in *.
  assert (E : render name kw "," = name ++ ":"%char :: join "," (map (fun kv => fst kv ++ "="%char :: snd kv) kw)) by reflexivity.
  rewrite E, split_on_app by (apply plain_not; auto).
  rewrite (split_on_none ":"%char) by (apply join_not; [discriminate|now apply args_not_colon]).
  assert (NS : Forall (fun a => a <> ";"%char) (join "," (map (fun kv => fst kv ++ "="%char :: snd kv) kw))).
  { apply join_not; [discriminate|]. apply Forall_forall. intros s Hin. apply in_map_iff in Hin. destruct Hin as (x & <- & Hx).
    rewrite Forall_forall in Hk. destruct (Hk x Hx) as (P1 & P2). apply Forall_app. split; [apply plain_not; auto|].
    constructor; [discriminate|]. apply plain_not; auto. }
  rewrite (split_on_none ";"%char) by exact NS. cbn [foldM].
  assert (K1 : plain (fst kv1) /\ plain (snd kv1)) by (inversion Hk; auto).
  assert (K2 : plain (fst kv2) /\ plain (snd kv2)) by (inversion Hk as [|? ? _ Hk2]; inversion Hk2; auto).
  assert (J : exists r, join "," (map (fun kv => fst kv ++ "="%char :: snd kv) kw) =
     fst kv1 ++ "="%char :: (snd kv1 ++ ","%char :: fst kv2) ++ "="%char :: r).
  { unfold kw. cbn [map].
    destruct (map (fun kv => fst kv ++ "="%char :: snd kv) kwargs) as [|q l].
    - exists (snd kv2). cbn [join]. repeat (rewrite <- !app_assoc; cbn [app]). reflexivity.
    - exists (snd kv2 ++ ","%char :: join "," (q :: l)).
      change (join "," ((fst kv1 ++ "="%char :: snd kv1) :: (fst kv2 ++ "="%char :: snd kv2) :: q :: l))
        with ((fst kv1 ++ "="%char :: snd kv1) ++ ","%char :: (fst kv2 ++ "="%char :: snd kv2) ++ ","%char :: join "," (q :: l)).
      repeat (rewrite <- !app_assoc; cbn [app]). reflexivity. }
  destruct J as (r & J). rewrite J.
  assert (L := split_on_two "="%char (fst kv1) (snd kv1 ++ ","%char :: fst kv2) r).
  specialize (L ltac:(apply plain_not; tauto)).
  specialize (L ltac:(apply Forall_app; split; [apply plain_not; tauto|constructor; [discriminate|apply plain_not; tauto]])).
  destruct (split_on "=" _) as [|a [|b [|c l]]]; simpl in L; try lia. reflexivity.
Qed.

Example C98_ex :
  parse_element (list_ascii_of_string "Linear : in_features=10; out_features=20") =
  Ok (list_ascii_of_string "Linear", [(list_ascii_of_string "in_features", list_ascii_of_string "10");
                                      (list_ascii_of_string "out_features", list_ascii_of_string "20")]) /\
  parse_element (list_ascii_of_string "Linear:in_features=10,out_features=20") = Err ValueError.
Proof. split; reflexivity. Qed.

Print Assumptions C49_autoregressive.
Print Assumptions C96_density_partial.
Print Assumptions C96_jacobian.
Print Assumptions C97_normal_llh.
Print Assumptions C97_bernoulli.
Print Assumptions C98_roundtrip.
Print Assumptions C97_outputs.
Print Assumptions C97_isotropic_outputs.
Print Assumptions C97_residual_block.

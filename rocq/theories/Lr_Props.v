(** C152, C153: Bayesian linear regression; C154: regressors of the linear
    dynamical systems. *)
From Coq Require Import Reals List Arith Bool Lia Lra.
From Verif Require Import Prelude Vec Fe_Model Fe_Proofs Lr_Model Lr_Spec.
Import ListNotations.
Local Open Scope R_scope.

(** ** Sums *)

Lemma dot_maps {A} (f g : A -> R) l : dot (map f l) (map g l) = sumf (fun a => f a * g a) l.
Proof. unfold dot, vmul. rewrite map2_map. reflexivity. Qed.

Lemma dot_pairs {A B} (f g : A -> B -> R) L M :
  dot (flat_map (fun a => map (f a) L) M) (flat_map (fun a => map (g a) L) M) =
  sumf (fun a => sumf (fun b => f a b * g a b) L) M.
Proof.
  induction M as [|a M IH]; [reflexivity|]. cbn [flat_map]. rewrite dot_app by (now rewrite !map_length).
  rewrite dot_maps, IH, sumf_cons. reflexivity.
Qed.

Lemma nth_firstn_lt {A} (l : list A) n i d : (i < n)%nat -> nth i (firstn n l) d = nth i l d.
Proof. revert n l. induction i; intros [|n] [|a l] H; cbn; auto; try lia. apply IHi. lia. Qed.

Lemma nth_skipn {A} (l : list A) n i d : nth i (skipn n l) d = nth (n + i) l d.
Proof. revert l. induction n; intros [|a l]; cbn; auto. destruct i; reflexivity. Qed.

Lemma seq_nth_map (l : list R) : l = map (fun i => nth i l 0) (seq 0 (length l)).
Proof.
  apply (nth_ext _ _ 0 0); [now rewrite map_length, seq_length|]. intros n Hn.
  rewrite (nth_indep (map _ _) 0 (nth 0 l 0)) by (now rewrite map_length, seq_length).
  rewrite (map_nth (fun i => nth i l 0)), seq_nth by auto. reflexivity.
Qed.

Lemma outer_idx phi : outer phi = flat_map (fun a => map (fun b => nth a phi 0 * nth b phi 0) (seq 0 (length phi))) (seq 0 (length phi)).
Proof.
  unfold outer. set (g := fun i : nat => nth i phi 0).
  assert (E : phi = map g (seq 0 (length phi))) by apply seq_nth_map.
  transitivity (flat_map (fun a => map (fun b => a * b) (map g (seq 0 (length phi)))) (map g (seq 0 (length phi)))).
  - now rewrite <- E.
  - rewrite !flat_map_concat_map, map_map. f_equal. apply map_ext. intros a. now rewrite map_map.
Qed.

Lemma Ex_ext {A} (l : list (R * A)) f g : (forall a, f a = g a) -> Ex l f = Ex l g.
Proof. intros H. apply sumf_ext. intros. now rewrite H. Qed.
Lemma Ex_ext_in {A} (l : list (R * A)) f g : (forall p, In p l -> f (snd p) = g (snd p)) -> Ex l f = Ex l g.
Proof. intros H. apply sumf_ext. intros p Hp. now rewrite H. Qed.
Lemma Ex_plus {A} (l : list (R * A)) f g : Ex l (fun a => f a + g a) = Ex l f + Ex l g.
Proof. unfold Ex. rewrite <- sumf_plus. apply sumf_ext. intros; ring. Qed.
Lemma Ex_scal {A} (l : list (R * A)) c f : Ex l (fun a => c * f a) = c * Ex l f.
Proof. unfold Ex. rewrite <- sumf_scal_l. apply sumf_ext. intros; ring. Qed.
Lemma Ex_const {A} (l : list (R * A)) c : sumf fst l = 1 -> Ex l (fun _ => c) = c.
Proof. intros H. unfold Ex. rewrite sumf_scal_r, H. ring. Qed.
Lemma Ex_sumf {A B} (l : list (R * A)) (f : B -> A -> R) L : Ex l (fun a => sumf (fun b => f b a) L) = sumf (fun b => Ex l (f b)) L.
Proof.
  induction L as [|b L IH].
  - unfold Ex. rewrite sumf_nil. apply sumf_zero. intros. rewrite sumf_nil. ring.
  - rewrite sumf_cons, <- IH, <- Ex_plus. apply Ex_ext. intros. now rewrite sumf_cons.
Qed.

Lemma predicted_sq r d phi w :
  sumf (fun j => predicted r phi w j ^ 2) (seq 0 d) =
  sumf (fun a => sumf (fun b => nth a phi 0 * nth b phi 0 * sumf (fun j => w a j * w b j) (seq 0 d)) (seq 0 r)) (seq 0 r).
Proof.
  rewrite (sumf_ext _ (fun j => sumf (fun a => sumf (fun b => nth a phi 0 * nth b phi 0 * (w a j * w b j)) (seq 0 r)) (seq 0 r))).
  - rewrite sumf_swap. apply sumf_ext. intros a _. rewrite sumf_swap. apply sumf_ext. intros b _. now rewrite sumf_scal_l.
  - intros j _. unfold predicted. simpl pow. rewrite Rmult_1_r, <- sumf_scal_r. apply sumf_ext. intros a _.
    rewrite <- sumf_scal_l. apply sumf_ext. intros b _. ring.
Qed.

Lemma sq_error_split r d x phi w : sq_error r d x phi w =
  sumf (fun j => nth j x 0 ^ 2) (seq 0 d) - 2 * sumf (fun j => nth j x 0 * predicted r phi w j) (seq 0 d)
  + sumf (fun a => sumf (fun b => nth a phi 0 * nth b phi 0 * sumf (fun j => w a j * w b j) (seq 0 d)) (seq 0 r)) (seq 0 r).
Proof.
  rewrite <- predicted_sq. unfold sq_error. rewrite <- sumf_scal_l, <- sumf_minus, <- sumf_plus. apply sumf_ext. intros; ring.
Qed.

(** ** The moments of a posterior with finitely many values *)

Section Regression.
  Variables (r d : nat) (wd : list (R * (nat -> nat -> R))) (ld : list (R * R)) (m : linreg).
  Hypothesis Hw : finite_dist wd.
  Hypothesis Hl : finite_dist ld.
  Hypothesis Hpos : forall p, In p ld -> 0 < snd p.

  Record moments : Prop := {
    mo_quad : l_quad m = flat_map (fun a => map (fun b => Ex wd (fun w => sumf (fun j => w a j * w b j) (seq 0 d))) (seq 0 r)) (seq 0 r);
    mo_weights : forall i j, (i < r)%nat -> (j < d)%nat -> at2 (l_weights m) i j = Ex wd (fun w => w i j);
    mo_prec : l_prec m = Ex ld (fun lam => lam);
    mo_logprec : l_logprec m = Ex ld ln;
    mo_value : l_prec_value m = Ex ld (fun lam => lam)
  }.
  Hypothesis Hm : moments.

  Lemma prec_pos : 0 < Ex ld (fun lam => lam).
  Proof using Hl Hpos.
    clear Hm. destruct Hl as [H0 H1]. clear Hl. revert H0 H1 Hpos. induction ld as [|[p lam] l IH]; intros H0 H1 Hp.
    - rewrite sumf_nil in H1. lra.
    - unfold Ex. rewrite sumf_cons. rewrite sumf_cons in H1. cbn [fst snd] in *.
      assert (L : 0 < lam) by (apply (Hp (p, lam)); now left). assert (P : 0 <= p) by (apply (H0 (p, lam)); now left).
      assert (S : 0 <= sumf (fun q => fst q * snd q) l).
      { apply sumf_nonneg. intros q Hq. apply Rmult_le_pos; [apply H0; now right|]. apply Rlt_le, Hp. now right. }
      destruct (Req_EM_T p 0) as [->|N].
      + assert (0 < Ex l (fun lam => lam)); [|unfold Ex in *; lra].
        apply IH; [intros; apply H0; now right|lra|intros; apply Hp; now right].
      + assert (0 < p * lam) by (apply Rmult_lt_0_compat; lra). lra.
  Qed.

  Variables (x phi : list R).
  Hypothesis Hx : length x = d.
  Hypothesis Hphi : length phi = r.

  Lemma mean_nth j : (j < d)%nat -> nth j (lr_mean d phi (l_weights m)) 0 = Ex wd (fun w => predicted r phi w j).
  Proof using Hm Hphi.
    clear Hx. intros Hj. unfold lr_mean. rewrite (nth_indep _ 0 (sumf (fun i => nth i phi 0 * at2 (l_weights m) i 0) (seq 0 (length phi))))
      by (now rewrite map_length, seq_length).
    rewrite (map_nth (fun j => sumf (fun i => nth i phi 0 * at2 (l_weights m) i j) (seq 0 (length phi)))), seq_nth by auto.
    cbn [plus]. rewrite Hphi. unfold predicted. rewrite Ex_sumf. apply sumf_ext. intros i Hi. apply in_seq in Hi.
    rewrite (mo_weights Hm) by lia. now rewrite Ex_scal.
  Qed.

  Lemma quad_value : dot (outer phi) (l_quad m) =
    Ex wd (fun w => sumf (fun a => sumf (fun b => nth a phi 0 * nth b phi 0 * sumf (fun j => w a j * w b j) (seq 0 d)) (seq 0 r)) (seq 0 r)).
  Proof using Hm Hphi.
    clear Hx. rewrite outer_idx, Hphi, (mo_quad Hm), dot_pairs. rewrite Ex_sumf. apply sumf_ext. intros a _.
    rewrite Ex_sumf. apply sumf_ext. intros b _. now rewrite Ex_scal.
  Qed.

  Lemma expected_error : Ex wd (sq_error r d x phi) =
    sumf (fun j => nth j x 0 ^ 2) (seq 0 d)
    - 2 * sumf (fun j => nth j x 0 * nth j (lr_mean d phi (l_weights m)) 0) (seq 0 d) + dot (outer phi) (l_quad m).
  Proof using Hw Hm Hphi.
    clear Hx. rewrite (Ex_ext _ _ (fun w => sumf (fun j => nth j x 0 ^ 2) (seq 0 d) +
      (- 2 * sumf (fun j => nth j x 0 * predicted r phi w j) (seq 0 d) +
       sumf (fun a => sumf (fun b => nth a phi 0 * nth b phi 0 * sumf (fun j => w a j * w b j) (seq 0 d)) (seq 0 r)) (seq 0 r)))).
    - rewrite Ex_plus, Ex_const by apply Hw. rewrite Ex_plus, Ex_scal, Ex_sumf, quad_value.
      rewrite (sumf_ext (fun j => nth j x 0 * nth j (lr_mean d phi (l_weights m)) 0) (fun b => Ex wd (fun w => nth b x 0 * predicted r phi w b))).
      + ring.
      + intros j Hj. apply in_seq in Hj. rewrite mean_nth by lia. now rewrite Ex_scal.
    - intros w. rewrite sq_error_split. ring.
  Qed.

  Lemma stats_length : length (lr_stats x) = (d + 3)%nat.
  Proof using Hx. clear Hphi. unfold lr_stats. rewrite !app_length. simpl. lia. Qed.

  Lemma data_stats : lr_data (lr_stats x) = x.
  Proof using Hx.
    clear Hphi. unfold lr_data. rewrite stats_length. replace (d + 3 - 3)%nat with (length x) by lia. unfold lr_stats. cbn [app skipn].
    rewrite firstn_app, firstn_all, Nat.sub_diag. simpl. apply app_nil_r.
  Qed.

  Lemma mean_length : length (lr_mean d phi (l_weights m)) = d.
  Proof using. unfold lr_mean. now rewrite map_length, seq_length. Qed.

  Lemma dot_short : dot (removelast (lr_stats x)) (removelast (lr_nparams m d phi)) =
    - (1/2) * l_prec m * Ex wd (sq_error r d x phi).
  Proof using Hw Hm Hx Hphi.
    rewrite expected_error. unfold lr_stats, lr_nparams.
    replace ([-(1/2) * rsum (map (fun v => v ^ 2) x)] ++ x ++ [-(1/2); 1/2 * INR (length x)])
      with (([-(1/2) * rsum (map (fun v => v ^ 2) x)] ++ x ++ [-(1/2)]) ++ [1/2 * INR (length x)]) by (now rewrite <- !app_assoc).
    rewrite removelast_last.
    replace ([l_prec m * 1] ++ vscale (l_prec m) (lr_mean d phi (l_weights m)) ++ [l_prec m * dot (outer phi) (l_quad m)] ++ [l_logprec m])
      with (([l_prec m * 1] ++ vscale (l_prec m) (lr_mean d phi (l_weights m)) ++ [l_prec m * dot (outer phi) (l_quad m)]) ++ [l_logprec m])
      by (now rewrite <- !app_assoc).
    rewrite removelast_last. rewrite dot_app by reflexivity. rewrite dot_app by (rewrite vscale_length, mean_length; auto).
    replace (dot x (vscale (l_prec m) (lr_mean d phi (l_weights m)))) with
      (l_prec m * sumf (fun j => nth j x 0 * nth j (lr_mean d phi (l_weights m)) 0) (seq 0 d)).
    - replace (rsum (map (fun v => v ^ 2) x)) with (sumf (fun j => nth j x 0 ^ 2) (seq 0 d)).
      + unfold dot, vmul. cbn [map2 rsum]. field.
      + rewrite <- Hx. unfold sumf. f_equal.
        transitivity (map (fun v => v ^ 2) (map (fun i => nth i x 0) (seq 0 (length x)))); [now rewrite map_map|]. now rewrite <- seq_nth_map.
    - transitivity (dot (map (fun j => nth j x 0) (seq 0 d)) (map (fun j => nth j (vscale (l_prec m) (lr_mean d phi (l_weights m))) 0) (seq 0 d))).
      2:{ f_equal; [rewrite <- Hx; symmetry; apply seq_nth_map|].
          transitivity (map (fun j => nth j (vscale (l_prec m) (lr_mean d phi (l_weights m))) 0) (seq 0 (length (vscale (l_prec m) (lr_mean d phi (l_weights m))))));
            [now rewrite vscale_length, mean_length|symmetry; apply seq_nth_map]. }
      rewrite dot_maps, <- sumf_scal_l. apply sumf_ext. intros j _. rewrite vscale_nth. ring.
  Qed.

  Lemma ellh_value : lr_ellh m (lr_stats x) phi =
    - (1/2) * l_prec m * Ex wd (sq_error r d x phi) + 1/2 * INR d * l_logprec m - 1/2 * INR d * ln PI.
  Proof using Hw Hm Hx Hphi.
    unfold lr_ellh. rewrite data_stats, Hx. cbv zeta. rewrite <- dot_short. f_equal.
    assert (E1 : lr_stats x = removelast (lr_stats x) ++ [1/2 * INR d]).
    { unfold lr_stats. rewrite Hx.
      replace ([-(1/2) * rsum (map (fun v => v ^ 2) x)] ++ x ++ [-(1/2); 1/2 * INR d])
        with (([-(1/2) * rsum (map (fun v => v ^ 2) x)] ++ x ++ [-(1/2)]) ++ [1/2 * INR d]) by (now rewrite <- !app_assoc).
      now rewrite removelast_last. }
    assert (E2 : lr_nparams m d phi = removelast (lr_nparams m d phi) ++ [l_logprec m]).
    { unfold lr_nparams.
      replace ([l_prec m * 1] ++ vscale (l_prec m) (lr_mean d phi (l_weights m)) ++ [l_prec m * dot (outer phi) (l_quad m)] ++ [l_logprec m])
        with (([l_prec m * 1] ++ vscale (l_prec m) (lr_mean d phi (l_weights m)) ++ [l_prec m * dot (outer phi) (l_quad m)]) ++ [l_logprec m])
        by (now rewrite <- !app_assoc).
      now rewrite removelast_last. }
    assert (L : length (removelast (lr_stats x)) = length (removelast (lr_nparams m d phi))).
    { rewrite !removelast_length, stats_length. unfold lr_nparams. rewrite !app_length, vscale_length, mean_length. simpl. lia. }
    rewrite E1, E2 at 1. rewrite dot_app by exact L. unfold dot at 2, vmul. cbn [map2 rsum]. ring.
  Qed.
End Regression.

Lemma log_density_value r d x phi w lam : 0 < lam ->
  log_density r d x phi w lam = 1/2 * INR d * ln lam - 1/2 * INR d * ln (2 * PI) - lam / 2 * sq_error r d x phi w.
Proof.
  intros H. unfold log_density, sq_error.
  assert (P := PI_RGT_0).
  rewrite (sumf_ext _ (fun j => (1/2 * ln lam - 1/2 * ln (2 * PI)) - lam / 2 * (nth j x 0 - predicted r phi w j) ^ 2)).
  - rewrite sumf_minus, sumf_const, sumf_scal_l, seq_length. ring.
  - intros j _. assert (Q : 0 < lam / (2 * PI)) by (apply Rdiv_lt_0_compat; lra).
    rewrite ln_mult by (try apply exp_pos; now apply sqrt_lt_R0). rewrite ln_exp.
    assert (S : ln (sqrt (lam / (2 * PI))) = 1/2 * ln (lam / (2 * PI))).
    { assert (E : ln (lam / (2 * PI)) = ln (sqrt (lam / (2 * PI))) + ln (sqrt (lam / (2 * PI)))).
      { rewrite <- ln_mult by (now apply sqrt_lt_R0). rewrite sqrt_sqrt by lra. reflexivity. }
      lra. }
    rewrite S. unfold Rdiv at 2. rewrite ln_mult, ln_Rinv by (try apply Rinv_0_lt_compat; lra). ring.
Qed.

(** ** C152: expected log-likelihood *)

(** It is the expectation of the log-density, plus the constant d/2 ln 2. *)
Theorem C152_value_partial : forall r d wd ld m x phi,
  finite_dist wd -> finite_dist ld -> (forall p, In p ld -> 0 < snd p) -> moments r d wd ld m ->
  length x = d -> length phi = r ->
  lr_ellh m (lr_stats x) phi =
  Ex ld (fun lam => Ex wd (fun w => log_density r d x phi w lam)) + INR d / 2 * ln 2.
Proof.
  intros r d wd ld m x phi Hw Hl Hp Hm Hx Hphi.
  rewrite (ellh_value r d wd ld m Hw Hm x phi Hx Hphi).
  rewrite (Ex_ext_in ld _ (fun lam => 1/2 * INR d * ln lam + (- (1/2) * INR d * ln (2 * PI) + - (1/2) * Ex wd (sq_error r d x phi) * lam))).
  - rewrite Ex_plus, Ex_plus, Ex_const, !Ex_scal by apply Hl. rewrite (mo_prec _ _ _ _ _ Hm), (mo_logprec _ _ _ _ _ Hm).
    assert (P := PI_RGT_0). rewrite (ln_mult 2 PI) by lra. field.
  - intros p Hi. rewrite (Ex_ext wd _ (fun w => (1/2 * INR d * ln (snd p) - 1/2 * INR d * ln (2 * PI)) + - (snd p / 2) * sq_error r d x phi w)).
    + rewrite Ex_plus, Ex_const, Ex_scal by apply Hw. field.
    + intros w. rewrite log_density_value by auto. ring.
Qed.

(** ... so it is never right. *)
Theorem C152_constant_refuted : forall r d wd ld m x phi,
  finite_dist wd -> finite_dist ld -> (forall p, In p ld -> 0 < snd p) -> moments r d wd ld m ->
  length x = d -> length phi = r -> (0 < d)%nat ->
  lr_ellh m (lr_stats x) phi > Ex ld (fun lam => Ex wd (fun w => log_density r d x phi w lam)).
Proof.
  intros r d wd ld m x phi Hw Hl Hp Hm Hx Hphi Hd. rewrite (C152_value_partial r d wd ld) by auto.
  assert (0 < INR d) by (now apply lt_0_INR). assert (0 < ln 2) by (rewrite <- ln_1; apply ln_increasing; lra).
  assert (0 < INR d / 2 * ln 2) by (apply Rmult_lt_0_compat; lra). lra.
Qed.

(** Differences between models or frames of the same dimension are right: the
    responsibilities of a mixture of regressions are. *)
Theorem C152_differences : forall r d wd ld m wd' ld' m' x phi,
  finite_dist wd -> finite_dist ld -> (forall p, In p ld -> 0 < snd p) -> moments r d wd ld m ->
  finite_dist wd' -> finite_dist ld' -> (forall p, In p ld' -> 0 < snd p) -> moments r d wd' ld' m' ->
  length x = d -> length phi = r ->
  forall rest, exists v v', lrset_ellh (m :: m' :: rest) (lr_stats x) phi = v :: v' :: lrset_ellh rest (lr_stats x) phi /\
  v - v' = Ex ld (fun lam => Ex wd (fun w => log_density r d x phi w lam)) -
           Ex ld' (fun lam => Ex wd' (fun w => log_density r d x phi w lam)).
Proof.
  intros r d wd ld m wd' ld' m' x phi H1 H2 H3 H4 H5 H6 H7 H8 Hx Hphi rest. eexists. eexists. split; [reflexivity|].
  rewrite (C152_value_partial r d wd ld), (C152_value_partial r d wd' ld') by auto. ring.
Qed.

(** ** C153: statistics *)

Definition weighted (data : list (R * (list R * list R))) : list (list R * list R) :=
  map (fun p => (vscale (fst p) (lr_stats (fst (snd p))), snd (snd p))) data.

Lemma removelast_vscale c v : removelast (vscale c v) = vscale c (removelast v).
Proof.
  unfold vscale. induction v as [|a [|b v] IH]; [reflexivity|reflexivity|].
  cbn [map removelast] in *. now rewrite IH.
Qed.

Lemma vscale_firstn_skipn c n v : firstn n (skipn 1 (vscale c v)) = vscale c (firstn n (skipn 1 v)).
Proof. unfold vscale. destruct v as [|a v]; cbn [map skipn]; [now rewrite !firstn_nil|]. apply firstn_map. Qed.

Lemma data_weighted c d x : length x = d -> lr_data (vscale c (lr_stats x)) = vscale c x.
Proof.
  intros Hx. unfold lr_data. rewrite vscale_length, vscale_firstn_skipn.
  change (firstn (length (lr_stats x) - 3) (skipn 1 (lr_stats x))) with (lr_data (lr_stats x)). now rewrite (data_stats d).
Qed.

Theorem C153_precision : forall r d wd ld m data,
  finite_dist wd -> finite_dist ld -> (forall p, In p ld -> 0 < snd p) -> moments r d wd ld m ->
  (forall p, In p data -> length (fst (snd p)) = d /\ length (snd (snd p)) = r) ->
  a_prec (lr_accumulate m r d (weighted data)) =
  [ sumf (fun p => fst p * (- (1/2) * Ex wd (sq_error r d (fst (snd p)) (snd (snd p))))) data;
    sumf (fun p => fst p * (INR d / 2)) data ].
Proof.
  intros r d wd ld m data Hw Hl Hp Hm Hd. assert (P := prec_pos ld Hl Hp).
  unfold lr_accumulate, weighted. cbn [a_prec]. rewrite !sumf_map. f_equal; [|f_equal]; apply sumf_ext; intros [a [x phi]] Hi;
    cbn [fst snd]; destruct (Hd _ Hi) as [Hx Hphi]; cbn [fst snd] in *.
  - unfold lr_delta. rewrite (data_weighted a d x Hx), vscale_length, Hx, removelast_vscale, dot_vscale_l. f_equal.
    replace (map (fun v => v / l_prec_value m) (removelast (lr_nparams m d phi)))
      with (vscale (/ l_prec_value m) (removelast (lr_nparams m d phi)))
      by (unfold vscale; apply map_ext; intros v; unfold Rdiv; ring).
    assert (C : forall c u v, dot u (vscale c v) = c * dot u v).
    { intros c u. unfold dot, vmul, vscale. induction u as [|u0 u IH]; intros [|v0 v]; cbn [map map2 rsum]; try ring. rewrite IH. ring. }
    rewrite C, (dot_short r d wd ld m Hw Hm x phi Hx Hphi).
    rewrite (mo_prec _ _ _ _ _ Hm), (mo_value _ _ _ _ _ Hm). field. lra.
  - rewrite last_nth, vscale_length, (stats_length d x Hx), vscale_nth. f_equal. unfold lr_stats.
    rewrite app_nth2 by (simpl; lia). rewrite app_nth2 by (simpl; lia). simpl length.
    replace (pred (d + 3) - 1 - length x)%nat with 1%nat by lia. cbn [nth]. rewrite Hx. field.
Qed.

(** The statistics of the weights: their product with the sufficient statistics
    (W W^T, W) of any weights is the part of the expected log-likelihood of the
    data that depends on the weights. *)
Theorem C153_weights : forall r d wd ld m data,
  finite_dist ld -> (forall p, In p ld -> 0 < snd p) -> moments r d wd ld m ->
  (forall p, In p data -> length (fst (snd p)) = d /\ length (snd (snd p)) = r) ->
  forall w : nat -> nat -> R,
  let acc := lr_accumulate m r d (weighted data) in
  length (a_quad acc) = (r * r)%nat /\ length (a_lin acc) = r /\
  dot (a_quad acc) (flat_map (fun a => map (fun b => sumf (fun j => w a j * w b j) (seq 0 d)) (seq 0 r)) (seq 0 r))
  + sumf (fun i => sumf (fun j => at2 (a_lin acc) i j * w i j) (seq 0 d)) (seq 0 r) =
  sumf (fun p => fst p * Ex ld (fun lam => log_density r d (fst (snd p)) (snd (snd p)) w lam -
                                           log_density r d (fst (snd p)) (snd (snd p)) (fun _ _ => 0) lam)) data.
Proof.
  intros r d wd ld m data Hl Hp Hm Hd w acc. split; [|split].
  { unfold acc, lr_accumulate. cbn [a_quad]. rewrite vscale_length.
    assert (G : forall (f : nat -> nat -> R) n s, length (flat_map (fun i => map (f i) (seq 0 r)) (seq s n)) = (n * r)%nat).
    { intros f n. induction n as [|n IH]; intros s; [reflexivity|]. cbn [seq flat_map]. rewrite app_length, map_length, seq_length, IH. lia. }
    apply G. }
  { unfold acc, lr_accumulate. cbn [a_lin]. now rewrite map_length, seq_length. }
  set (lam0 := Ex ld (fun lam => lam)).
  assert (V : l_prec_value m = lam0) by apply (mo_value _ _ _ _ _ Hm).
  assert (Q : dot (a_quad acc) (flat_map (fun a => map (fun b => sumf (fun j => w a j * w b j) (seq 0 d)) (seq 0 r)) (seq 0 r)) =
    sumf (fun p => fst p * (- (lam0 / 2) * sumf (fun j => predicted r (snd (snd p)) w j ^ 2) (seq 0 d))) data).
  { unfold acc, lr_accumulate. cbn [a_quad]. rewrite dot_vscale_l, dot_pairs, V, <- sumf_scal_l.
    rewrite (sumf_ext (fun p => fst p * (- (lam0 / 2) * sumf (fun j => predicted r (snd (snd p)) w j ^ 2) (seq 0 d)))
      (fun p => sumf (fun a => fst p * (- (lam0 / 2) * sumf (fun b => nth a (snd (snd p)) 0 * nth b (snd (snd p)) 0 * sumf (fun j => w a j * w b j) (seq 0 d)) (seq 0 r))) (seq 0 r))).
    2:{ intros p _. rewrite predicted_sq, <- !sumf_scal_l. apply sumf_ext. intros; ring. }
    rewrite (sumf_swap _ data). apply sumf_ext. intros a _.
    rewrite <- sumf_scal_l.
    rewrite (sumf_ext (fun p => fst p * (- (lam0 / 2) * sumf (fun b => nth a (snd (snd p)) 0 * nth b (snd (snd p)) 0 * sumf (fun j => w a j * w b j) (seq 0 d)) (seq 0 r)))
      (fun p => sumf (fun b => fst p * (- (lam0 / 2)) * (nth a (snd (snd p)) 0 * nth b (snd (snd p)) 0 * sumf (fun j => w a j * w b j) (seq 0 d))) (seq 0 r))).
    2:{ intros p _. rewrite <- !sumf_scal_l. apply sumf_ext. intros; ring. }
    rewrite (sumf_swap _ data). apply sumf_ext. intros b _. unfold weighted. rewrite sumf_map.
    rewrite <- sumf_scal_r, <- sumf_scal_l. apply sumf_ext. intros [c [x phi]] Hi. cbn [fst snd].
    destruct (Hd _ Hi) as [Hx Hphi]. cbn [fst snd] in *.
    rewrite vscale_length, (stats_length d x Hx), vscale_nth. unfold lr_stats at 1.
    rewrite app_nth2 by (simpl; lia). rewrite app_nth2 by (simpl; lia). simpl length.
    replace (d + 3 - 2 - 1 - length x)%nat with 0%nat by lia. cbn [nth]. field. }
  assert (Li : sumf (fun i => sumf (fun j => at2 (a_lin acc) i j * w i j) (seq 0 d)) (seq 0 r) =
    sumf (fun p => fst p * (lam0 * sumf (fun j => nth j (fst (snd p)) 0 * predicted r (snd (snd p)) w j) (seq 0 d))) data).
  { rewrite (sumf_ext _ (fun i => sumf (fun j => sumf (fun p => fst p * lam0 * (nth i (snd (snd p)) 0 * w i j * nth j (fst (snd p)) 0)) data) (seq 0 d))).
    - rewrite (sumf_ext _ (fun i => sumf (fun p => sumf (fun j => fst p * lam0 * (nth i (snd (snd p)) 0 * w i j * nth j (fst (snd p)) 0)) (seq 0 d)) data))
        by (intros; apply sumf_swap).
      rewrite sumf_swap. apply sumf_ext. intros p _. rewrite sumf_swap, <- !sumf_scal_l. apply sumf_ext. intros j _.
      unfold predicted. rewrite <- !sumf_scal_l. apply sumf_ext. intros; ring.
    - intros i Hi. apply in_seq in Hi. apply sumf_ext. intros j Hj. apply in_seq in Hj.
      unfold acc, lr_accumulate, at2. cbn [a_lin].
      rewrite (nth_indep _ [] (vscale (l_prec_value m) (map (fun j => sumf (fun sp => nth 0 (snd sp) 0 * nth j (lr_data (fst sp)) 0) (weighted data)) (seq 0 d))))
        by (rewrite map_length, seq_length; lia).
      rewrite (map_nth (fun i => vscale (l_prec_value m) (map (fun j => sumf (fun sp => nth i (snd sp) 0 * nth j (lr_data (fst sp)) 0) (weighted data)) (seq 0 d)))).
      rewrite seq_nth by lia. cbn [plus]. rewrite vscale_nth.
      rewrite (nth_indep _ 0 (sumf (fun sp => nth i (snd sp) 0 * nth 0 (lr_data (fst sp)) 0) (weighted data))) by (rewrite map_length, seq_length; lia).
      rewrite (map_nth (fun j => sumf (fun sp => nth i (snd sp) 0 * nth j (lr_data (fst sp)) 0) (weighted data))), seq_nth by lia.
      cbn [plus]. rewrite V. unfold weighted. rewrite sumf_map, <- sumf_scal_l, <- sumf_scal_r. apply sumf_ext.
      intros [c [x phi]] Hp'. cbn [fst snd]. destruct (Hd _ Hp') as [Hx _]. cbn [fst snd] in Hx.
      rewrite (data_weighted c d x Hx), vscale_nth. ring. }
  rewrite Q, Li, <- sumf_plus. apply sumf_ext. intros [c [x phi]] Hi. cbn [fst snd].
  rewrite (Ex_ext_in ld _ (fun lam => (- (1/2) * (sq_error r d x phi w - sq_error r d x phi (fun _ _ => 0))) * lam)).
  - rewrite Ex_scal. fold lam0. rewrite !sq_error_split.
    assert (Z : sumf (fun j => nth j x 0 * predicted r phi (fun _ _ => 0) j) (seq 0 d) = 0).
    { apply sumf_zero. intros j _. unfold predicted. rewrite sumf_zero; [ring|]. intros; ring. }
    assert (Z2 : sumf (fun a => sumf (fun b => nth a phi 0 * nth b phi 0 * sumf (fun _ : nat => 0 * 0) (seq 0 d)) (seq 0 r)) (seq 0 r) = 0).
    { apply sumf_zero. intros a _. apply sumf_zero. intros b _. rewrite (sumf_zero (fun _ : nat => 0 * 0)); [ring|]. intros; ring. }
    rewrite Z, Z2, predicted_sq. field.
  - intros p Hp'. rewrite !log_density_value by auto. field.
Qed.

(** A set of regressions weights the frames with the responsibilities of each. *)
Theorem C153_set : forall ms r d (data : list (list R * list R * list R)) k m,
  nth_error ms k = Some m ->
  nth_error (lrset_accumulate ms r d (map (fun x => (lr_stats (fst (fst x)), snd (fst x), snd x)) data)) k =
  Some (lr_accumulate m r d (weighted (map (fun x => (nth k (snd x) 0, (fst (fst x), snd (fst x)))) data))).
Proof.
  intros ms r d data k m H. unfold lrset_accumulate. rewrite nth_error_map.
  assert (G : forall (l : list linreg) s k, nth_error l k = Some m -> nth_error (combine (seq s (length l)) l) k = Some ((s + k)%nat, m)).
  { induction l as [|a l IH]; intros s [|j] Hj; cbn in *; try discriminate.
    - rewrite Nat.add_0_r. congruence.
    - rewrite IH by auto. do 2 f_equal. lia. }
  rewrite (G ms 0%nat k H). cbn [option_map fst snd plus]. unfold weighted. rewrite !map_map. reflexivity.
Qed.

Example C153_example : exists m, moments 1 1 [(1/2, fun _ _ => 1); (1/2, fun _ _ => 3)] [(1, 2)] m /\
  lr_ellh m (lr_stats [5]) [1] = - (1/2) * 2 * (1/2 * 16 + 1/2 * 4) + 1/2 * ln 2 - 1/2 * ln PI /\
  a_prec (lr_accumulate m 1 1 (weighted [(1, ([5], [1]))])) = [-5; 1/2].
Proof.
  set (wd := [(1/2, fun _ _ : nat => 1); (1/2, fun _ _ : nat => 3)]). set (ld := [(1, 2)]).
  set (m := {| l_quad := [5]; l_weights := [[2]]; l_prec := 2; l_logprec := ln 2; l_prec_value := 2 |}).
  assert (Hw : finite_dist wd).
  { split; [|unfold wd; rewrite !sumf_cons, sumf_nil; simpl; lra]. intros p [<-|[<-|[]]]; simpl; lra. }
  assert (Hl : finite_dist ld).
  { split; [|unfold ld; rewrite !sumf_cons, sumf_nil; simpl; lra]. intros p [<-|[]]; simpl; lra. }
  assert (Hm : moments 1 1 wd ld m).
  { constructor; cbn [m l_quad l_weights l_prec l_logprec l_prec_value].
    - unfold wd, Ex. cbn [seq flat_map map app]. unfold sumf. cbn [map rsum fst snd].
      f_equal. lra.
    - intros i j Hi Hj. assert (i = 0%nat) by lia. assert (j = 0%nat) by lia. subst. unfold at2, wd, Ex. cbn [nth].
      rewrite !sumf_cons, sumf_nil. cbn [fst snd]. lra.
    - unfold ld, Ex. rewrite sumf_cons, sumf_nil. cbn [fst snd]. lra.
    - unfold ld, Ex. rewrite sumf_cons, sumf_nil. cbn [fst snd]. lra.
    - unfold ld, Ex. rewrite sumf_cons, sumf_nil. cbn [fst snd]. lra. }
  assert (E : Ex wd (sq_error 1 1 [5] [1]) = 1/2 * 16 + 1/2 * 4).
  { unfold Ex, wd, sq_error, predicted, sumf. cbn [seq map rsum fst snd nth]. field. }
  assert (Hp : forall p, In p ld -> 0 < snd p) by (intros p [<-|[]]; simpl; lra).
  exists m. split; [exact Hm|]. split.
  - rewrite (ellh_value 1 1 wd ld m Hw Hm [5] [1] eq_refl eq_refl), E. cbn [m l_prec l_logprec]. simpl INR. ring.
  - rewrite (C153_precision 1 1 wd ld m [(1, ([5], [1]))] Hw Hl Hp Hm).
    + rewrite !sumf_cons, !sumf_nil. cbn [fst snd]. rewrite E. simpl INR. f_equal; [field|]. f_equal. field.
    + intros p [<-|[]]. auto.
Qed.

(** ** C154: regressors of the linear dynamical systems *)

(** Entry (dimension i, base k) of the regressors of frame t: the coefficient of
    the [memory] frames before t, zeros before the first one. *)
Theorem C154_regressors : forall memory n d frames bases,
  (0 < memory)%nat -> (0 < length frames)%nat -> (forall x, In x frames -> length x = d) ->
  dct_bases memory n = Ok bases ->
  exists phi, lds_regressors memory n bases d frames = Ok phi /\ length phi = length frames /\
  forall t i k, (t < length frames)%nat -> (i < d)%nat -> (k < n)%nat ->
    nth (i * n + k) (nth t phi []) 0 =
    sumf (fun j => (if (t + j <? memory)%nat then 0 else at2 frames (t + j - memory) i) *
                   cos (PI / INR memory * (INR j + 1/2) * INR k)) (seq 0 memory).
Proof.
  intros memory n d frames bases Hme Hf Hd Hb. unfold dct_bases in Hb.
  assert (Lp : length (repeat (vzeros d) memory ++ frames) = (memory + length frames)%nat) by (rewrite app_length, repeat_length; lia).
  unfold lds_regressors. rewrite removelast_length, Lp.
  destruct (Nat.ltb_spec (pred (memory + length frames)) memory) as [H|_]; [lia|].
  eexists. split; [reflexivity|]. split.
  { rewrite !map_length, seq_length. lia. }
  intros t i k Ht Hi Hk.
  assert (Hn : (n =? 0)%nat = false) by (apply Nat.eqb_neq; lia). rewrite Hn in Hb.
  assert (Hm0 : (memory =? 0)%nat = false) by (apply Nat.eqb_neq; lia). rewrite Hm0 in Hb. injection Hb as <-.
  rewrite map_map.
  match goal with |- context [nth t (map ?f _) []] => set (F := f) end.
  rewrite (nth_indep _ [] (F 0%nat)) by (rewrite map_length, seq_length; lia).
  rewrite (map_nth F), seq_nth by lia. cbn [plus]. unfold F. cbv beta.
  match goal with |- nth _ (flat_map (fun i => map (@?g i) _) _) 0 = _ => set (G := g) end.
  assert (FM : forall D s, (i < D)%nat -> nth (i * n + k) (flat_map (fun i => map (G i) (seq 0 n)) (seq s D)) 0 = G (s + i)%nat k).
  { clear -Hk. revert i. intros i D. revert i. induction D as [|D IH]; intros i s Hi; [lia|]. cbn [seq flat_map]. destruct i as [|i].
    - rewrite app_nth1 by (rewrite map_length, seq_length; lia). cbn [Nat.mul plus].
      rewrite (nth_indep _ 0 (G s 0%nat)) by (rewrite map_length, seq_length; lia). rewrite map_nth, seq_nth by lia.
      rewrite Nat.add_0_r. reflexivity.
    - rewrite app_nth2 by (rewrite map_length, seq_length; nia). rewrite map_length, seq_length.
      replace (S i * n + k - n)%nat with (i * n + k)%nat by nia. rewrite IH by lia. f_equal. lia. }
  rewrite FM by exact Hi. cbn [plus]. unfold G. apply sumf_ext. intros j Hj. apply in_seq in Hj. f_equal.
  - unfold at2 at 1. rewrite nth_firstn_lt by lia. rewrite nth_skipn.
    rewrite removelast_nth by (rewrite Lp; lia).
    destruct (Nat.ltb_spec (t + j) memory) as [H|H].
    + rewrite app_nth1 by (rewrite repeat_length; lia). rewrite (nth_indep _ [] (vzeros d)) by (rewrite repeat_length; lia).
      rewrite nth_repeat. apply vzeros_nth.
    + rewrite app_nth2 by (rewrite repeat_length; lia). rewrite repeat_length. reflexivity.
  - unfold at2. rewrite (nth_indep _ [] (map (Lr_Model.dct_base memory 0) (seq 0 n))) by (rewrite map_length, seq_length; lia).
    rewrite (map_nth (fun j => map (Lr_Model.dct_base memory j) (seq 0 n))), seq_nth by lia. cbn [plus].
    rewrite (nth_indep _ 0 (Lr_Model.dct_base memory j 0)) by (rewrite map_length, seq_length; lia).
    rewrite map_nth, seq_nth by lia. reflexivity.
Qed.

(** The regressors of a frame depend on the frames before it only: those of two
    sequences that agree before t are the same at t. *)
Theorem C154_causal : forall memory n d bases frames frames' phi phi' t,
  lds_regressors memory n bases d frames = Ok phi -> lds_regressors memory n bases d frames' = Ok phi' ->
  (t < length frames)%nat -> (t < length frames')%nat ->
  firstn t frames = firstn t frames' -> nth t phi [] = nth t phi' [].
Proof.
  intros memory n d bases frames frames' phi phi' t H H' Ht Ht' E. unfold lds_regressors in H, H'.
  assert (Lp : forall f : list (list R), length (repeat (vzeros d) memory ++ f) = (memory + length f)%nat)
    by (intros; rewrite app_length, repeat_length; lia).
  rewrite removelast_length, Lp in H, H'.
  destruct (Nat.ltb_spec (pred (memory + length frames)) memory); [discriminate|].
  destruct (Nat.ltb_spec (pred (memory + length frames')) memory); [discriminate|].
  injection H as <-. injection H' as <-. rewrite !map_map.
  match goal with |- nth t (map ?f _) [] = nth t (map ?g _) [] => set (F := f); set (F' := g) end.
  rewrite (nth_indep _ [] (F 0%nat)) by (rewrite map_length, seq_length; lia).
  rewrite (nth_indep (map F' _) [] (F' 0%nat)) by (rewrite map_length, seq_length; lia).
  rewrite (map_nth F), (map_nth F'), !seq_nth by lia. cbn [plus]. unfold F, F'.
  assert (W : firstn memory (skipn t (removelast (repeat (vzeros d) memory ++ frames))) =
              firstn memory (skipn t (removelast (repeat (vzeros d) memory ++ frames')))).
  { assert (RL : forall (l : list (list R)) q, (q < length l)%nat -> firstn q (removelast l) = firstn q l).
    { intros l q Hq. rewrite removelast_firstn_len, firstn_firstn. f_equal. lia. }
    rewrite !firstn_skipn_comm. f_equal. rewrite !RL by (rewrite Lp; lia).
    rewrite !firstn_app, repeat_length. f_equal.
    replace (t + memory - memory)%nat with t by lia. exact E. }
  rewrite W. reflexivity.
Qed.

(** The bases are orthogonal as long as there are no more of them than frames in
    the memory. *)
Theorem C154_orthogonal : forall memory k l, (k < memory)%nat -> (l < memory)%nat ->
  sumf (fun j => Lr_Model.dct_base memory j k * Lr_Model.dct_base memory j l) (seq 0 memory) =
  if (k =? l)%nat then (if (k =? 0)%nat then INR memory else INR memory / 2) else 0.
Proof.
  intros N k l Hk Hl. assert (HN : 0 < INR N) by (apply lt_0_INR; lia).
  assert (Z : forall j, Lr_Model.dct_base N j 0 = 1).
  { intros j. unfold Lr_Model.dct_base. simpl INR. rewrite Rmult_0_r. apply cos_0. }
  assert (S : forall j q, Lr_Model.dct_base N j (S q) = Fe_Model.dct_base N j q).
  { intros j q. unfold Lr_Model.dct_base, Fe_Model.dct_base. f_equal. rewrite S_INR. field. lra. }
  destruct k as [|k], l as [|l].
  - rewrite (sumf_ext _ (fun _ => 1)) by (intros; rewrite Z; ring). rewrite sumf_const, seq_length. simpl. ring.
  - rewrite (sumf_ext _ (fun j => Fe_Model.dct_base N j l)) by (intros; rewrite Z, S; ring). simpl. apply dct_sum_zero. lia.
  - rewrite (sumf_ext _ (fun j => Fe_Model.dct_base N j k)) by (intros; rewrite Z, S; ring). simpl. apply dct_sum_zero. lia.
  - rewrite (sumf_ext _ (fun j => Fe_Model.dct_base N j k * Fe_Model.dct_base N j l)) by (intros; rewrite !S; ring).
    rewrite dct_orthogonal by lia. reflexivity.
Qed.

(** Without frames there are no regressors. *)
Theorem C154_no_frames : forall memory n d bases, (0 < memory)%nat -> lds_regressors memory n bases d [] = Err RuntimeError.
Proof.
  intros memory n d bases H. unfold lds_regressors. rewrite removelast_length, app_nil_r, repeat_length.
  destruct (Nat.ltb_spec (pred memory) memory); [reflexivity|lia].
Qed.

Theorem C154_no_memory : forall n, (0 < n)%nat -> dct_bases 0 n = Err ZeroDivisionError.
Proof. intros [|n] H; [lia|reflexivity]. Qed.

(** The values of the system are those of its regressions with these regressors. *)
Theorem C154_ellh : forall ms memory n d bases frames phi,
  (0 < memory)%nat -> (0 < length frames)%nat -> (forall x, In x frames -> length x = d) ->
  lds_regressors memory n bases d frames = Ok phi ->
  exists v, lds_ellh ms memory n bases d (map lr_stats frames) = Ok v /\ length v = length frames /\
  forall t k m, (t < length frames)%nat -> nth_error ms k = Some m ->
    nth_error (nth t v []) k = Some (lr_ellh m (lr_stats (nth t frames [])) (nth t phi [])).
Proof.
  intros ms memory n d bases frames phi Hme Hf Hd H. unfold lds_ellh.
  assert (M : map lr_data (map lr_stats frames) = frames).
  { rewrite map_map. rewrite <- (map_id frames) at 2. apply map_ext_in. intros x Hx. now apply (data_stats d), Hd. }
  rewrite M, H. cbn [bindr]. eexists. split; [reflexivity|].
  assert (L : length phi = length frames).
  { unfold lds_regressors in H. destruct (_ <? _)%nat; [discriminate|]. injection H as <-.
    rewrite !map_length, seq_length, removelast_length, app_length, repeat_length. lia. }
  clear -L. revert phi L. induction frames as [|x frames IH]; intros [|f phi] L; try discriminate L.
  - split; [reflexivity|]. intros t k m Ht. simpl in Ht. lia.
  - injection L as L. destruct (IH phi L) as [L' G]. split; [cbn [map map2 length]; now rewrite L'|].
    intros [|t] k m Ht Hk; cbn [map map2 nth].
    + unfold lrset_ellh. now rewrite nth_error_map, Hk.
    + apply G; [simpl in Ht; lia|exact Hk].
Qed.

Example C154_example : exists bases phi, dct_bases 2 1 = Ok bases /\ lds_regressors 2 1 bases 1 [[5]; [7]; [9]] = Ok phi /\
  nth 0 (nth 0 phi []) 0 = 0 /\ nth 0 (nth 1 phi []) 0 = 5 /\ nth 0 (nth 2 phi []) 0 = 12.
Proof.
  eexists.
  destruct (C154_regressors 2 1 1 [[5]; [7]; [9]] (map (fun j => map (Lr_Model.dct_base 2 j) (seq 0 1)) (seq 0 2))) as (phi & E & _ & F);
    [lia|simpl; lia|intros x [<-|[<-|[<-|[]]]]; reflexivity|reflexivity|].
  exists phi. split; [reflexivity|]. split; [exact E|].
  assert (C : forall j, cos (PI / INR 2 * (INR j + 1/2) * INR 0) = 1) by (intros j; simpl INR; rewrite Rmult_0_r; apply cos_0).
  assert (F0 := F 0%nat 0%nat 0%nat). assert (F1 := F 1%nat 0%nat 0%nat). assert (F2 := F 2%nat 0%nat 0%nat).
  cbn [Nat.mul plus length seq] in F0, F1, F2. rewrite F0, F1, F2 by lia. rewrite !sumf_cons, !sumf_nil, !C.
  cbn [Nat.ltb Nat.leb plus minus]. unfold at2. cbn [nth]. repeat split; ring.
Qed.

Print Assumptions C152_value_partial.
Print Assumptions C153_weights.
Print Assumptions C154_regressors.

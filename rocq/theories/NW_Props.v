(** Properties of the NormalWishart, of its likelihood and of the full
    covariance Normal: C38, C40, C41, C42, C85, C87, C88, C90. *)
From Coq Require Import Reals List Arith Bool Lia Lra.
From Verif Require Import Prelude Vec Gibbs Lgamma Dist_Model Dist_Spec Dist_Proofs NG_Proofs KL_Proofs Llh_Proofs Mat MatDet NW_Model NW_Spec LMat NW_Proofs NW_KL NW_Llh.
Import ListNotations.
Local Open Scope R_scope.

(** ** C38: NormalWishart *)
Theorem C38_roundtrip : forall D p P,
  length (nw_mean p) = D -> is_mat D (nw_W p) -> nw_scale p <> 0 -> is_inverse D (mget (nw_W p)) P ->
  exists n, nw_nat p = Ok n /\ length n = (D + (D * D + 2))%nat /\ nw_from_nat n = Ok p.
Proof.
  intros D p P H1 H2 H3 HP. destruct (nw_nat_npar D p P H1 H2 HP) as (n & E & Hn).
  exists n. split; [exact E|]. split; [apply Hn|]. now apply (nw_roundtrip D).
Qed.

Theorem C38_roundtrip_natural : forall D n p,
  length n = (D + (D * D + 2))%nat -> nth (D + D * D) n 0 <> 0 ->
  nw_from_nat n = Ok p -> nw_nat p = Ok n.
Proof. exact nw_roundtrip'. Qed.

Theorem C38_textbook_posterior : forall D prior post data P,
  nw_ok D prior -> nw_ok D post -> frames_of_dim D data -> nonneg_weights data ->
  is_inverse D (mget (nw_W prior)) P ->
  exists q, nw_update 1 prior post (wstats (D + (D * D + 2)) nl_suff_stats data) = Ok q /\
  nw_ok D q /\
  nw_scale q = nw_scale prior + Nw data /\ nw_dof q = nw_dof prior + Nw data /\
  (forall i, (i < D)%nat -> nth i (nw_mean q) 0 =
     (nw_scale prior * nth i (nw_mean prior) 0 + Sw i data) / (nw_scale prior + Nw data)) /\
  is_inverse D (mget (nw_W q)) (fun i j => P i j + Scat i j (nw_mean q) data
     + nw_scale prior * ((nth i (nw_mean prior) 0 - nth i (nw_mean q) 0)
                         * (nth j (nw_mean prior) 0 - nth j (nw_mean q) 0))) /\
  (* the same with the empirical mean *)
  (Nw data <> 0 -> forall xbar, (forall i, (i < D)%nat -> nth i xbar 0 = Sw i data / Nw data) ->
     is_inverse D (mget (nw_W q)) (fun i j => P i j + Scat i j xbar data
     + nw_scale prior * Nw data / (nw_scale prior + Nw data)
       * ((nth i xbar 0 - nth i (nw_mean prior) 0) * (nth j xbar 0 - nth j (nw_mean prior) 0)))).
Proof.
  intros D prior post data P Op Oq Hx Hw HP.
  destruct (nw_full D prior data Op Hx Hw) as (full & np & E & F1 & F2 & F3 & F4 & F5 & F6 & F7 & F8).
  exists full. rewrite (nw_update_full D prior post data Op Oq Hx np E).
  assert (Hm : forall i, (i < D)%nat -> nth i (nw_mean full) 0 = dmean (vf (nw_mean prior)) (nw_scale prior) data i)
    by (intros i Hi; rewrite F7; now apply map_seq_nth).
  assert (K : nw_scale prior + Nw data <> 0).
  { destruct Op as (_ & _ & _ & K & _). assert (N0 := Nw_nonneg data Hw). lra. }
  assert (F := F8 P HP).
  split; [exact F1|]. split; [exact F2|]. split; [exact F5|]. split; [exact F6|]. split; [|split].
  - intros i Hi. rewrite Hm by auto. reflexivity.
  - eapply is_inverse_ext; [apply meq_refl| |exact F]. intros i j Hi Hj.
    rewrite (dprec_scatter D _ _ _ _ (nw_mean full)) by auto. reflexivity.
  - intros HN xbar Hb. eapply is_inverse_ext; [apply meq_refl| |exact F]. intros i j Hi Hj.
    rewrite (Scat_expand D) by auto. rewrite !Hb by auto. unfold dprec, dmean, vf. field. auto.
Qed.

(** Along any training history the scale matrix stays symmetric positive
    definite, and the next step does not fail. *)
Theorem C38_positive_definite_forever : forall D prior post,
  nw_ok D prior -> nw_reach D prior post ->
  nw_ok D post /\
  (forall lrate data, 0 <= lrate <= 1 -> frames_of_dim D data -> nonneg_weights data ->
     exists q, nw_update lrate prior post (wstats (D + (D * D + 2)) nl_suff_stats data) = Ok q /\ nw_ok D q).
Proof.
  intros D prior post Op Hr.
  assert (O : nw_ok D post).
  { induction Hr as [p H|p q lrate data Hr IH Hl Hx Hw E]; [exact H|].
    destruct (nw_step D lrate prior p data Op IH Hl Hx Hw) as (q' & E' & O'). congruence. }
  split; [exact O|]. intros. now apply nw_step.
Qed.

Lemma lists2 (a b c d a' b' c' d' : R) : a = a' -> b = b' -> c = c' -> d = d' ->
  [[a; b]; [c; d]] = [[a'; b']; [c'; d']].
Proof. intros; subst; reflexivity. Qed.

Lemma meq2 (A B : fm) : A 0%nat 0%nat = B 0%nat 0%nat -> A 0%nat 1%nat = B 0%nat 1%nat ->
  A 1%nat 0%nat = B 1%nat 0%nat -> A 1%nat 1%nat = B 1%nat 1%nat -> meq 2 A B.
Proof. intros. intros [|[|i]] [|[|j]] Hi Hj; try lia; auto. Qed.

Lemma bsum2 f : bsum 2 f = f 0%nat + f 1%nat.
Proof. unfold bsum, sumf. simpl. ring. Qed.

Ltac inv2 := split; apply meq2; unfold mmul; rewrite bsum2; unfold idm, mget; simpl; lra.

Example C38_ex :
  nw_nat {| nw_mean := [1; 3]; nw_scale := 2; nw_W := [[2; 1]; [1; 1]]; nw_dof := 5 |} =
  Ok [2; 6; -3/2; -5/2; -5/2; -10; -1; 3/2] /\
  nw_from_nat [2; 6; -3/2; -5/2; -5/2; -10; -1; 3/2] =
  Ok {| nw_mean := [1; 3]; nw_scale := 2; nw_W := [[2; 1]; [1; 1]]; nw_dof := 5 |}.
Proof.
  set (p := {| nw_mean := [1; 3]; nw_scale := 2; nw_W := [[2; 1]; [1; 1]]; nw_dof := 5 |}).
  set (P := mget [[1; -1]; [-1; 2]]).
  assert (M : is_mat 2 (nw_W p)) by (split; [reflexivity|repeat constructor]).
  assert (I : is_inverse 2 (mget (nw_W p)) P) by (unfold p, P; inv2).
  assert (E : nw_nat p = Ok [2; 6; -3/2; -5/2; -5/2; -10; -1; 3/2]).
  { unfold nw_nat. rewrite (t_inverse_ok 2 _ P M I). unfold bindr. unfold P, p. simpl.
    f_equal. unfold mget; simpl. repeat (apply f_equal2; [lra|]). reflexivity. }
  split; [exact E|]. apply (nw_roundtrip 2 p); auto. simpl. lra.
Qed.

Lemma posdef_diag2 a b : 0 < a -> 0 < b -> posdef 2 (mget [[a; 0]; [0; b]]).
Proof.
  intros Ha Hb. split.
  - apply meq2; reflexivity.
  - intros x (i & Hi & Hx). rewrite quad_bsum, bsum2, !bsum2. unfold mget. simpl.
    assert (Q0 : 0 <= x 0%nat * x 0%nat) by apply Rle_0_sqr. assert (Q1 : 0 <= x 1%nat * x 1%nat) by apply Rle_0_sqr.
    assert (P0 : 0 <= x 0%nat * x 0%nat * a) by (apply Rmult_le_pos; lra).
    assert (P1 : 0 <= x 1%nat * x 1%nat * b) by (apply Rmult_le_pos; lra).
    destruct i as [|[|i]]; [| |lia].
    + assert (0 < x 0%nat * x 0%nat * a) by (apply Rmult_lt_0_compat; auto; now apply Rsqr_pos_lt). lra.
    + assert (0 < x 1%nat * x 1%nat * b) by (apply Rmult_lt_0_compat; auto; now apply Rsqr_pos_lt). lra.
Qed.

(** Two dimensions, prior N(0, .) W(I, 3), one frame (2, 0). *)
Example C38_ex_update :
  let p := {| nw_mean := [0; 0]; nw_scale := 1; nw_W := [[1; 0]; [0; 1]]; nw_dof := 3 |} in
  nw_update 1 p p (wstats 8 nl_suff_stats [(1, [2; 0])]) =
  Ok {| nw_mean := [1; 0]; nw_scale := 2; nw_W := [[1/3; 0]; [0; 1]]; nw_dof := 4 |}.
Proof.
  intros p.
  assert (M : is_mat 2 (nw_W p)) by (split; [reflexivity|repeat constructor]).
  assert (O : nw_ok 2 p).
  { split; [reflexivity|]. split; [exact M|]. split; [apply posdef_diag2; lra|]. simpl. lra. }
  assert (I : is_inverse 2 (mget (nw_W p)) (mget [[1; 0]; [0; 1]])) by (unfold p; inv2).
  destruct (C38_textbook_posterior 2 p p [(1, [2; 0])] (mget [[1; 0]; [0; 1]]) O O) as (q & E & (Q1 & Q2 & Q3 & Q4 & Q5) & S & V & Mn & W & _);
    try exact I; try (repeat constructor; simpl; lra).
  change (wstats 8 nl_suff_stats [(1, [2; 0])]) with (wstats (2 + (2 * 2 + 2)) nl_suff_stats [(1, [2; 0])]).
  rewrite E. f_equal. unfold Nw, Sw, sumf in *. simpl in S, V, Mn.
  assert (M0 := Mn 0%nat ltac:(lia)). assert (M1 := Mn 1%nat ltac:(lia)). simpl in M0, M1.
  assert (Em : nw_mean q = [1; 0]).
  { destruct (nw_mean q) as [|a [|b [|c l]]]; simpl in Q1; try discriminate. simpl in M0, M1.
    apply f_equal2; [lra|]. apply f_equal2; [lra|reflexivity]. }
  apply nw_par_ext; simpl; auto; try lra.
  apply (lmat_ext 2); auto; [split; [reflexivity|repeat constructor]|].
  apply is_inverse_sym in W. eapply inverse_unique; [apply W|].
  assert (J : is_inverse 2 (mget [[3; 0]; [0; 1]]) (mget [[1/3; 0]; [0; 1]])) by inv2.
  destruct J as (J & _). eapply meq_trans; [|exact J]. apply mmul_ext; [|apply meq_refl].
  apply meq2; rewrite Em; unfold Scat, sumf, mget; simpl; lra.
Qed.

(** ** C40: divergences *)
Theorem C40_normal_wishart : forall D p q, nw_ok D p -> nw_ok D q ->
  (exists kl, nw_kl p q = Ok kl /\ 0 <= kl) /\ nw_kl p p = Ok 0.
Proof. intros D p q Hp Hq. split; [now apply (nw_kl_nonneg D)|now apply (nw_kl_self D)]. Qed.

(** Textbook value; W = L L^T, W' = L' L'^T, P' the inverse of W'. *)
Theorem C40_normal_wishart_value : forall D p q P' L L',
  nw_ok D p -> nw_ok D q -> is_inverse D (mget (nw_W q)) P' ->
  is_chol D (mget (nw_W p)) L -> is_chol D (mget (nw_W q)) L' ->
  let m i := nth i (nw_mean p) 0 in let m' i := nth i (nw_mean q) 0 in
  let k := nw_scale p in let k' := nw_scale q in let v := nw_dof p in let v' := nw_dof q in
  let W := mget (nw_W p) in
  nw_kl p q = Ok (
    1/2 * k' * v * sumf (fun i => sumf (fun j => (m i - m' i) * (m j - m' j) * W i j) (seq 0 D)) (seq 0 D)
    + 1/2 * INR D * (k' / k - 1 - (ln k' - ln k))
    + 1/2 * v' * (2 * sumf (fun i => ln (L' i i)) (seq 0 D) - 2 * sumf (fun i => ln (L i i)) (seq 0 D))
    + 1/2 * v * (sumf (fun i => sumf (fun j => W i j * P' i j) (seq 0 D)) (seq 0 D) - INR D)
    + sumf (fun i => lgamma (1/2 * (v' - INR i)) - lgamma (1/2 * (v - INR i))
                     - digamma (1/2 * (v - INR i)) * (1/2 * (v' - v))) (seq 0 D)).
Proof.
  intros D p q P' L L' Hp Hq HP HL HL' m m' k k' v v' W.
  rewrite (nw_kl_is D p q P' L L') by auto. unfold nw_kl_value. rewrite quad_bsum. reflexivity.
Qed.

Theorem C40_full_normal : forall D p q, nf_ok D p -> nf_ok D q ->
  (exists kl, nf_kl p q = Ok kl /\ 0 <= kl) /\ nf_kl p p = Ok 0.
Proof.
  intros D p q Hp Hq. split; [now apply (nf_kl_nonneg D)|].
  assert (O := Hp). destruct Hp as (H1 & H2 & H3). destruct (posdef_inverse D _ H3) as (P & _ & HP).
  destruct (chol_complete D _ H3) as (L & _ & HL).
  rewrite (nf_kl_value D p p P L L) by auto.
  f_equal. rewrite (tr2_inverse D _ P) by (auto; eapply inverse_msym; eauto; apply H3).
  rewrite quad_minus by (eapply inverse_msym; eauto; apply H3). unfold quad. lra.
Qed.

(** ** C41: steps on a NormalWishart never decrease the bound *)
Definition getl {A} (d : A) (r : result A) : A := match r with Ok x => x | Err _ => d end.

Theorem C41_normal_wishart : forall D prior post data lrate,
  nw_ok D prior -> nw_ok D post -> frames_of_dim D data -> nonneg_weights data -> 0 <= lrate <= 1 ->
  let stats := wstats (D + (D * D + 2)) nl_suff_stats data in
  exists q full b b' best,
    nw_update lrate prior post stats = Ok q /\ nw_update 1 prior post stats = Ok full /\
    nw_elbo prior stats post = Ok b /\ nw_elbo prior stats q = Ok b' /\ nw_elbo prior stats full = Ok best /\
    b <= b' /\ (forall r, nw_ok D r -> exists br, nw_elbo prior stats r = Ok br /\ br <= best).
Proof.
  intros D prior post data lrate Op Oq Hx Hw Hl stats.
  destruct (nw_full D prior data Op Hx Hw) as (full & np & E & F1 & F2 & F3 & F4 & _).
  fold stats in F1, F3.
  assert (Ef := nw_update_full D prior post data Op Oq Hx np E). fold stats in Ef. rewrite F1 in Ef.
  set (nat_of := fun p => getl [] (nw_nat p)). set (ess := fun p => getl [] (nw_ess p)).
  set (lnorm := fun p => getl 0 (nw_log_norm p)). set (fromn := fun n => getl prior (nw_from_nat n)).
  assert (Kn : forall p, nw_ok D p -> nw_nat p = Ok (nat_of p) /\ length (nat_of p) = (D + (D * D + 2))%nat).
  { intros p O. destruct (nw_ok_npar D p O) as (n & P & En & _ & _ & Hn). unfold nat_of. rewrite En. simpl.
    split; auto. apply Hn. }
  assert (Ke : forall p, nw_ok D p -> nw_ess p = Ok (ess p) /\ length (ess p) = (D + (D * D + 2))%nat /\
                nw_log_norm p = Ok (lnorm p)).
  { intros p (O1 & O2 & O3 & O4 & O5). destruct (chol_complete D _ O3) as (L & _ & HL).
    destruct (nw_ess_epar D p L O1 O2 HL) as (e & Ee & He). unfold ess, lnorm.
    rewrite Ee, (nw_log_norm_value D p L) by auto. simpl. split; [auto|]. split; [apply He|auto]. }
  assert (Kk : forall p q, nw_ok D p -> nw_ok D q ->
    nw_kl p q = Ok (kl_div (nat_of p) (ess p) (nat_of q) (lnorm p) (lnorm q))).
  { intros p q O1 O2. unfold nw_kl. destruct (Kn p O1) as (-> & _), (Kn q O2) as (-> & _).
    destruct (Ke p O1) as (-> & _ & ->), (Ke q O2) as (_ & _ & ->). reflexivity. }
  assert (Kb : forall p, nw_ok D p -> nw_elbo prior stats p = Ok (elbo_of nat_of ess lnorm prior stats p)).
  { intros p O. unfold nw_elbo. destruct (Ke p O) as (-> & _). rewrite Kk by auto. reflexivity. }
  assert (Hn : forall p, nw_ok D p -> length (nat_of p) = (D + (D * D + 2))%nat) by (intros; now apply Kn).
  assert (He : forall p, nw_ok D p -> length (ess p) = (D + (D * D + 2))%nat) by (intros; now apply Ke).
  assert (Hkl : forall p q, nw_ok D p -> nw_ok D q -> 0 <= kl_div (nat_of p) (ess p) (nat_of q) (lnorm p) (lnorm q)).
  { intros p q O1 O2. destruct (nw_kl_nonneg D p q O1 O2) as (kl & E1 & E2). rewrite Kk in E1 by auto. congruence. }
  assert (Hm : forall l p q, nw_ok D p -> nw_ok D q -> 0 <= l <= 1 ->
    nw_from_nat (vadd (nat_of p) (vscale l (vsub (nat_of q) (nat_of p)))) =
      Ok (fromn (vadd (nat_of p) (vscale l (vsub (nat_of q) (nat_of p))))) /\
    nw_ok D (fromn (vadd (nat_of p) (vscale l (vsub (nat_of q) (nat_of p))))) /\
    nat_of (fromn (vadd (nat_of p) (vscale l (vsub (nat_of q) (nat_of p))))) =
      vadd (nat_of p) (vscale l (vsub (nat_of q) (nat_of p)))).
  { intros l p q O1 O2 Hll. destruct (nw_mix D l p q _ _ O1 O2 Hll (proj1 (Kn p O1)) (proj1 (Kn q O2))) as (r & R1 & R2 & R3).
    unfold fromn. rewrite R1. simpl. split; auto. split; auto. unfold nat_of at 1. rewrite R3. reflexivity. }
  assert (Hrt : forall p, nw_ok D p -> fromn (nat_of p) = p).
  { intros p O. unfold fromn. assert (O' := O). destruct O' as (O1 & O2 & _ & O4 & _).
    rewrite (nw_roundtrip D p (nat_of p)); auto; [lra|now apply Kn]. }
  assert (Hf : nat_of full = vadd (nat_of prior) stats).
  { unfold nat_of. rewrite F3, E. reflexivity. }
  assert (Ls : length stats = (D + (D * D + 2))%nat) by (apply (nl_wstats D data Hx)).
  set (q := std_update nat_of fromn lrate prior post stats).
  assert (Eq : q = fromn (vadd (nat_of post) (vscale lrate (vsub (nat_of full) (nat_of post))))).
  { unfold q, std_update. now rewrite Hf. }
  destruct (Hm lrate post full Oq F2 Hl) as (M1 & M2 & M3). rewrite <- Eq in M1, M2, M3.
  exists q, full, (elbo_of nat_of ess lnorm prior stats post), (elbo_of nat_of ess lnorm prior stats q),
    (elbo_of nat_of ess lnorm prior stats full).
  split.
  { unfold nw_update. destruct (Kn prior Op) as (-> & _), (Kn post Oq) as (-> & _). cbn [bindr].
    rewrite <- Hf. exact M1. }
  split; [exact Ef|]. split; [now apply Kb|]. split; [now apply Kb|]. split; [now apply Kb|]. split.
  - apply (bound_step_not_worse nat_of ess lnorm fromn (nw_ok D) (D + (D * D + 2)) Hn He Hkl) with (full := full); auto.
    + intros; now apply Hm.
    + intros; now apply Hm.
  - intros r Or. eexists. split; [now apply Kb|].
    apply (bound_full_is_max nat_of ess lnorm (nw_ok D) (D + (D * D + 2)) Hn He Hkl); auto.
Qed.

(** ** C42: full covariance *)
(** Natural form of (mean m, precision P) with log-determinant ld *)
Definition nl_natural (D : nat) (m : list R) (P : fm) (ld : R) : list R :=
  map (fun i => sumf (fun k => P i k * nth k m 0) (seq 0 D)) (seq 0 D)
  ++ concat (mk D P)
  ++ [sumf (fun i => nth i m 0 * sumf (fun k => P i k * nth k m 0) (seq 0 D)) (seq 0 D)] ++ [ld].

Lemma nl_natural_gnat D m P ld : gnat D (nl_natural D m P ld) (vf m) P ld.
Proof.
  unfold nl_natural. set (a := map _ (seq 0 D)).
  assert (L1 : length a = D) by (unfold a; now rewrite map_length, seq_length).
  assert (L2 := concat_flat D _ (is_mat_mk D P)).
  unfold gnat. split; [|split; [|split; [|split]]].
  - rewrite !app_length, L1, L2. reflexivity.
  - intros i Hi. rewrite nth_app_l by lia. unfold a. now rewrite map_seq_nth by auto.
  - intros i j Hi Hj. rewrite nth_app_r by auto. rewrite nth_app_l by (rewrite L2; now apply flat_lt).
    rewrite (concat_nth D) by (auto using is_mat_mk). now apply mget_mk.
  - rewrite nth_app_r by auto. replace (D * D)%nat with (D * D + 0)%nat by lia.
    rewrite nth_app_r by auto. reflexivity.
  - rewrite nth_app_r by auto. rewrite nth_app_r by auto. reflexivity.
Qed.

Theorem C42_full : forall D m P L x, is_chol D P L -> length x = D ->
  nl_llh D (nl_natural D m P (2 * sumf (fun i => ln (L i i)) (seq 0 D))) (nl_suff_stats x) = gauss_logpdf D L m x.
Proof. intros D m P L x HL Hx. apply (nl_llh_density D _ m P L x); auto. apply nl_natural_gnat. Qed.

(** From real vectors: mean, logarithms of the squared diagonal and strictly
    lower entries, row by row, of the factor of the precision. *)
Theorem C42_full_real_vectors : forall D r x L,
  length r = nl_stats_dim D false -> length x = D ->
  (forall i, (i < D)%nat -> L i i = exp (1/2 * nth (D + i) r 0)) ->
  (forall i j, (i < D)%nat -> (j < i)%nat -> L i j = nth (2 * D + (i * (i - 1) / 2 + j)) r 0) ->
  (forall i j, (i < j)%nat -> L i j = 0) ->
  exists n, nl_pdfvec_from_rvec D r = Ok n /\
    nl_llh D n (nl_suff_stats x) = gauss_logpdf D L (firstn D r) x.
Proof.
  intros D r x L Hr Hx L1 L2 L3. unfold nl_stats_dim in Hr. rewrite tri_closed, Nat.add_0_r in Hr.
  destruct (nl_pdfvec_gnat D r Hr) as (n & E & Hn). exists n. split; [exact E|].
  assert (EL : meq D (rfactor D r) L).
  { intros i j Hi Hj. unfold rfactor. destruct (Nat.ltb_spec j i) as [A|A].
    - rewrite L2, tri_closed by auto. reflexivity.
    - destruct (Nat.eqb_spec i j) as [->|B]; [symmetry; apply L1; auto|symmetry; apply L3; lia]. }
  assert (C : is_chol D (mmul D (rfactor D r) (mT (rfactor D r))) L).
  { split; [|split].
    - intros i j Hi Hj Hij. auto.
    - intros i Hi. rewrite L1 by auto. apply exp_pos.
    - apply mmul_ext; intros i j Hi Hj; unfold mT; symmetry; auto. }
  apply (nl_llh_density D n (firstn D r) (mmul D (rfactor D r) (mT (rfactor D r))) L x); auto.
  replace (2 * bsum D (fun i => ln (L i i))) with (bsum D (fun i => nth (D + i) r 0)); [exact Hn|].
  rewrite <- bsum_scal. apply bsum_ext. intros i Hi. rewrite L1, ln_exp by auto. lra.
Qed.

(** Batches of full covariance Normals *)
Theorem C42_full_normal_forward : forall D p P K x, nf_ok D p -> length x = D ->
  is_inverse D (mget (nf_cov p)) P -> is_chol D P K ->
  nf_forward true p (nf_suff_stats x) = Ok (gauss_logpdf D K (nf_mean p) x).
Proof. intros D p P K x Hp Hx HI HK. apply nf_forward_value; auto. exists P. auto. Qed.

Example C42_ex_full :
  (* precision [[4, 2], [2, 2]] = L L^T with L = [[2, 0], [1, 1]] *)
  nl_llh 2 [6; 4; 4; 2; 2; 2; 10; 2 * (ln 2 + ln 1)] (nl_suff_stats [1; 3]) =
  gauss_logpdf 2 (mget [[2; 0]; [1; 1]]) [1; 1] [1; 3] /\
  gauss_logpdf 2 (mget [[2; 0]; [1; 1]]) [1; 1] [1; 3] = ln 2 - 4 - ln (2 * PI).
Proof.
  assert (V : gauss_logpdf 2 (mget [[2; 0]; [1; 1]]) [1; 1] [1; 3] = ln 2 - 4 - ln (2 * PI)).
  { rewrite gauss_logpdf_quad, quad_bsum, bsum2, !bsum2. unfold mmul, mT. rewrite !bsum2. unfold mget. simpl.
    rewrite ln_1. lra. }
  split; [|exact V]. rewrite V. unfold nl_llh, nl_suff_stats, outer, dot, vmul. simpl. rewrite ln_1. lra.
Qed.

(** ** C85: real vectors and back, full covariance *)
Theorem C85_full : forall D r, length r = nl_stats_dim D false ->
  exists n prec, nl_pdfvec_from_rvec D r = Ok n /\ nl_params_from_pdfvec D n = Ok (firstn D r, prec) /\
  is_mat D prec /\ posdef D (mget prec) /\
  let L i j := if Nat.ltb j i then nth (2 * D + (i * (i - 1) / 2 + j)) r 0
               else if Nat.eqb i j then exp (1/2 * nth (D + i) r 0) else 0 in
  (forall i j, (i < D)%nat -> (j < D)%nat -> mget prec i j = sumf (fun k => L i k * L j k) (seq 0 D)).
Proof.
  intros D r Hr. unfold nl_stats_dim in Hr. rewrite tri_closed, Nat.add_0_r in Hr.
  destruct (nl_pdfvec_gnat D r Hr) as (n & E & Hn).
  assert (HP : posdef D (mmul D (rfactor D r) (mT (rfactor D r)))).
  { apply factor_posdef, kernel_T, lower_kernel; [apply rfactor_lower|apply rfactor_pos]. }
  destruct (nl_params_gnat D n (firstn D r) _ _ Hn) as (prec & E' & M & EP); auto.
  { rewrite firstn_length. lia. }
  exists n, prec. split; [exact E|]. split; [exact E'|]. split; [exact M|]. split.
  - apply (posdef_ext D (mmul D (rfactor D r) (mT (rfactor D r)))); auto. now apply meq_sym.
  - intros L i j Hi Hj. rewrite EP by auto. unfold mmul, mT. apply bsum_ext. intros k Hk.
    unfold L, rfactor. rewrite !tri_closed. reflexivity.
Qed.

Theorem C85_full_bad_length : forall D r, length r <> nl_stats_dim D false ->
  nl_pdfvec_from_rvec D r = Err RuntimeError.
Proof.
  intros D r H. unfold nl_pdfvec_from_rvec. unfold nl_stats_dim in H.
  destruct (Nat.eqb_spec (length r) (2 * D + D * (D - 1) / 2)); [lia|reflexivity].
Qed.

(** ** C87: expected log-likelihood under a NormalWishart *)
Theorem C87_full : forall D p L x, nw_ok D p -> is_chol D (mget (nw_W p)) L -> length x = D ->
  exists e, nw_ess p = Ok e /\
  let Lv i j := sqrt (nw_dof p) * L i j in
  (* textbook value, and Jensen's inequality; L Lv factors the mean precision *)
  nl_llh D e (nl_suff_stats x) =
    1/2 * (sumf (fun i => digamma (1/2 * (nw_dof p - INR i))) (seq 0 D) + INR D * ln 2
           + 2 * sumf (fun i => ln (L i i)) (seq 0 D))
    - 1/2 * INR D / nw_scale p - 1/2 * INR D * ln (2 * PI)
    - 1/2 * nw_dof p * sumf (fun i => sumf (fun j =>
        (nth i x 0 - nth i (nw_mean p) 0) * (nth j x 0 - nth j (nw_mean p) 0) * mget (nw_W p) i j) (seq 0 D)) (seq 0 D) /\
  ((0 < D)%nat -> is_chol D (fun i j => nw_dof p * mget (nw_W p) i j) Lv /\
     nl_llh D e (nl_suff_stats x) <= gauss_logpdf D Lv (nw_mean p) x).
Proof.
  intros D p L x Hp HL Hx. destruct (nw_exp_llh D p L x Hp HL Hx) as (e & Ee & V). exists e. split; [exact Ee|].
  intros Lv. rewrite V. split.
  - rewrite quad_bsum. unfold bsum. field. destruct Hp as (_ & _ & _ & K & _). lra.
  - intros HD. destruct Hp as (P1 & P2 & P3 & P4 & P5).
    assert (HD1 : 1 <= INR D) by (change 1 with (INR 1); apply le_INR; lia).
    assert (Hv : 0 < nw_dof p) by lra.
    assert (C := chol_scale D _ L (nw_dof p) Hv HL). split; [exact C|].
    rewrite gauss_logpdf_quad.
    rewrite (quad_ext D (mmul D Lv (mT Lv)) (fun i j => nw_dof p * mget (nw_W p) i j) _ (fun i => nth i x 0 - nth i (nw_mean p) 0))
      by (auto; apply C).
    rewrite quad_scal.
    assert (S1 : bsum D (fun i => ln (Lv i i)) = bsum D (fun i => 1/2 * ln (nw_dof p)) + bsum D (fun i => ln (L i i))).
    { rewrite <- bsum_plus. apply bsum_ext. intros i Hi. unfold Lv.
      rewrite ln_mult, ln_sqrt by (auto; try (now apply sqrt_lt_R0); apply HL; auto). reflexivity. }
    rewrite S1.
    assert (S2 : bsum D (fun i => 1/2 * digamma (1/2 * (nw_dof p - INR i)) + 1/2 * ln 2) <= bsum D (fun i => 1/2 * ln (nw_dof p))).
    { apply bsum_le. intros i Hi.
      assert (X : INR i <= INR D - 1).
      { assert (Y : INR (S i) <= INR D) by (apply le_INR; lia). rewrite S_INR in Y. lra. }
      assert (Y := pos_INR i).
      assert (G := digamma_le_ln (1/2 * (nw_dof p - INR i)) ltac:(lra)).
      assert (M : ln (1/2 * (nw_dof p - INR i)) <= ln (nw_dof p / 2)) by (apply ln_mono; lra).
      rewrite (ln_div (nw_dof p) 2) in M by lra. lra. }
    rewrite bsum_plus, bsum_scal in S2.
    replace (bsum D (fun _ => 1/2 * ln 2)) with (INR D * (1/2 * ln 2)) in S2 by (unfold bsum; rewrite sumf_const, seq_length; ring).
    assert (0 <= 1/2 * INR D / nw_scale p) by (apply Rmult_le_pos; [lra|apply Rlt_le, Rinv_0_lt_compat; auto]).
    lra.
Qed.

(** ** C88: announced dimensions, full covariance *)
(** The announced dimension is the one of the real vectors (without the two
    extra values), not the length of the statistics. *)
Theorem C88_full_covariance_refuted : forall d x, length x = d -> (1 < d)%nat ->
  length (nl_suff_stats x) <> nl_stats_dim d true.
Proof.
  intros d x Hx Hd. rewrite (nl_suff_length d x Hx). unfold nl_stats_dim. rewrite tri_closed.
  assert (T : forall a, (1 < a)%nat -> (tri a < a * a - a)%nat).
  { induction a as [|a IH]; [lia|]. intros Ha. cbn [tri]. destruct (Nat.eq_dec a 1) as [->|]; [simpl; lia|].
    specialize (IH ltac:(lia)). nia. }
  specialize (T d Hd). nia.
Qed.

Theorem C88_full_covariance_partial : forall d x r n, length x = d -> length r = nl_stats_dim d false ->
  nl_pdfvec_from_rvec d r = Ok n -> length n = length (nl_suff_stats x) /\
  (d = 1%nat -> length (nl_suff_stats x) = nl_stats_dim d true).
Proof.
  intros d x r n Hx Hr E. unfold nl_stats_dim in Hr. rewrite tri_closed, Nat.add_0_r in Hr.
  destruct (nl_pdfvec_gnat d r Hr) as (n' & E' & Hn). rewrite E in E'. injection E' as <-.
  rewrite (nl_suff_length d x Hx). split; [apply Hn|]. intros ->. reflexivity.
Qed.

(** ** C90: the full covariance Normal *)
(** from_natural_parameters does not restore the matrix shape: it fails from
    two dimensions on. *)
Theorem C90_roundtrip_refuted : forall D p, nf_ok D p -> (1 < D)%nat ->
  exists n, nf_nat p = Ok n /\ nf_from_nat n = Err RuntimeError.
Proof.
  intros D p (H1 & H2 & H3) HD. destruct (posdef_inverse D _ H3) as (P & _ & HP).
  destruct (nf_nat_value D p P H1 H2 HP) as (n & E & N1 & _). exists n. split; [exact E|].
  unfold nf_from_nat. rewrite N1, dim_of_spec. unfold t_inverse. simpl forallb.
  rewrite slice_length by nia. replace (D * (D + 1) - D)%nat with (D * D)%nat by nia.
  destruct (Nat.eqb_spec (D * D) 1) as [Ha|_]; [nia|]. reflexivity.
Qed.

Theorem C90_roundtrip_partial : forall p, nf_ok 1 p ->
  exists n, nf_nat p = Ok n /\ nf_from_nat n = Ok p.
Proof.
  intros p (H1 & H2 & H3). destruct (posdef_inverse 1 _ H3) as (P & _ & HP).
  destruct (nf_nat_value 1 p P H1 H2 HP) as (n & E & N1 & N2 & N3). exists n. split; [exact E|].
  assert (A := N2 0%nat ltac:(lia)). assert (B := N3 0%nat 0%nat ltac:(lia) ltac:(lia)).
  destruct n as [|a [|b [|c l]]]; simpl in N1; try discriminate. simpl in A, B.
  unfold mvm, bsum, sumf in A. simpl in A.
  destruct p as [m C]. simpl in *. destruct m as [|m0 [|m1 m]]; simpl in H1; try discriminate.
  destruct H2 as (C1 & C2). destruct C as [|row [|row' C]]; simpl in C1; try discriminate.
  assert (R1 := Forall_inv C2). simpl in R1. destruct row as [|c0 [|c1 row]]; simpl in R1; try discriminate.
  unfold vf in A. simpl in A.
  destruct HP as (I1 & I2). assert (J := I1 0%nat 0%nat ltac:(lia) ltac:(lia)).
  unfold mmul, bsum, sumf, mget, idm in J. simpl in J.
  assert (C0 : c0 <> 0) by (intros ->; lra).
  rewrite B in *. unfold nf_from_nat. change (dim_of (length [a; P 0%nat 0%nat])) with 1%nat.
  change (slice 1 (1 * (1 + 1)) [a; P 0%nat 0%nat]) with [P 0%nat 0%nat].
  rewrite (t_inverse_ok 1 [[P 0%nat 0%nat]] (mget [[c0]])).
  - cbn [bindr]. unfold mk. simpl. unfold mget. simpl.
    replace (c0 * a) with m0; [reflexivity|].
    rewrite A. transitivity ((c0 * P 0%nat 0%nat + 0) * m0); [rewrite J; ring|ring].
  - split; [reflexivity|repeat constructor].
  - split; intros [|i] [|j] Hi Hj; try lia; unfold mmul, bsum, sumf, mget, idm; simpl; lra.
Qed.

(** The log-density of a single (not batched) distribution raises. *)
Theorem C90_single_forward_refuted : forall D p x, nf_ok D p -> length x = D ->
  nf_forward false p (nf_suff_stats x) = Err IndexError.
Proof.
  intros D p x (H1 & H2 & H3) Hx. unfold nf_forward. destruct (posdef_inverse D _ H3) as (P & _ & HP).
  destruct (nf_nat_value D p P H1 H2 HP) as (n & -> & _).
  destruct (t_cholesky_posdef D _ H2 H3) as (L & _ & ->). reflexivity.
Qed.

Lemma nw_ok_diag2 m k a b v : length m = 2%nat -> 0 < k -> 0 < a -> 0 < b -> 1 < v ->
  nw_ok 2 {| nw_mean := m; nw_scale := k; nw_W := [[a; 0]; [0; b]]; nw_dof := v |}.
Proof.
  intros. split; [auto|]. split; [split; [reflexivity|repeat constructor]|].
  split; [now apply posdef_diag2|]. simpl. lra.
Qed.

Lemma chol_diag2 a b : 0 < a -> 0 < b -> is_chol 2 (mget [[a * a; 0]; [0; b * b]]) (mget [[a; 0]; [0; b]]).
Proof.
  intros Ha Hb. split; [|split].
  - intros [|[|i]] [|[|j]] Hi Hj Hij; try lia; reflexivity.
  - intros [|[|i]] Hi; try lia; unfold mget; simpl; lra.
  - apply meq2; unfold mmul, mT; rewrite bsum2; unfold mget; simpl; lra.
Qed.

(** Means one unit apart, precision 3 I on average, scale 2: divergence 3. *)
Example C40_ex_wishart :
  nw_kl {| nw_mean := [1; 0]; nw_scale := 2; nw_W := [[1; 0]; [0; 1]]; nw_dof := 3 |}
        {| nw_mean := [0; 0]; nw_scale := 2; nw_W := [[1; 0]; [0; 1]]; nw_dof := 3 |} = Ok 3.
Proof.
  assert (C := chol_diag2 1 1 ltac:(lra) ltac:(lra)). rewrite !Rmult_1_r in C.
  rewrite (C40_normal_wishart_value 2 _ _ (mget [[1; 0]; [0; 1]]) (mget [[1; 0]; [0; 1]]) (mget [[1; 0]; [0; 1]])); try (apply nw_ok_diag2; auto; lra);
    [|simpl; inv2|exact C|exact C].
  f_equal. unfold sumf. simpl. unfold mget. simpl.
  match goal with |- context [ln 1] => rewrite ln_1 end. lra.
Qed.

Example C85_ex_full : exists n, nl_pdfvec_from_rvec 2 [5; 7; 2 * ln 2; 0; 1] = Ok n /\
  nl_params_from_pdfvec 2 n = Ok ([5; 7], [[4; 2]; [2; 2]]).
Proof.
  destruct (C85_full 2 [5; 7; 2 * ln 2; 0; 1] eq_refl) as (n & prec & E & E' & M & _ & V).
  exists n. split; [exact E|]. rewrite E'. simpl. do 2 f_equal.
  apply (lmat_ext 2); auto; [split; [reflexivity|repeat constructor]|].
  assert (X : exp (1 / 2 * (2 * ln 2)) = 2) by (replace (1/2 * (2 * ln 2)) with (ln 2) by lra; apply exp_ln; lra).
  assert (Y : exp (1 / 2 * 0) = 1) by (rewrite Rmult_0_r; apply exp_0).
  apply meq2; rewrite V by lia; unfold sumf; simpl; rewrite ?X, ?Y; unfold mget; simpl; lra.
Qed.

Example C88_ex_full : length (nl_suff_stats [1; 2]) = 8%nat /\ nl_stats_dim 2 true = 7%nat.
Proof. split; reflexivity. Qed.

Example C90_ex : exists n, nf_nat {| nf_mean := [1; 2]; nf_cov := [[2; 0]; [0; 1]] |} = Ok n /\
  n = [1/2; 2; 1/2; 0; 0; 1] /\ nf_from_nat n = Err RuntimeError.
Proof.
  set (p := {| nf_mean := [1; 2]; nf_cov := [[2; 0]; [0; 1]] |}).
  assert (M : is_mat 2 (nf_cov p)) by (split; [reflexivity|repeat constructor]).
  assert (O : nf_ok 2 p) by (split; [reflexivity|]; split; [exact M|]; apply posdef_diag2; lra).
  destruct (C90_roundtrip_refuted 2 p O ltac:(lia)) as (n & E & F). exists n. split; [exact E|]. split; [|exact F].
  assert (I : is_inverse 2 (mget (nf_cov p)) (mget [[1/2; 0]; [0; 1]])) by (unfold p; inv2).
  unfold nf_nat in E. rewrite (t_inverse_ok 2 _ _ M I) in E. cbn [bindr] in E. injection E as <-.
  unfold lmvm, dot, vmul, p. simpl. unfold mget. simpl. repeat (apply f_equal2; [lra|]). reflexivity.
Qed.

Print Assumptions C38_textbook_posterior.
Print Assumptions C38_positive_definite_forever.
Print Assumptions C40_normal_wishart.
Print Assumptions C41_normal_wishart.
Print Assumptions C42_full_real_vectors.
Print Assumptions C87_full.
Print Assumptions C90_roundtrip_partial.

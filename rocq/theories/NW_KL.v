(** NormalWishart: expected statistics, divergence, bound; likelihoods. *)
From Coq Require Import Reals List Arith Bool Lia Lra.
From Verif Require Import Prelude Vec Gibbs Lgamma Dist_Model Dist_Spec Dist_Proofs NG_Proofs KL_Proofs Llh_Proofs Mat NW_Model NW_Spec LMat NW_Proofs.
Import ListNotations.
Local Open Scope R_scope.

Lemma seq1_bsum (f : nat -> R) D : rsum (map f (seq 1 D)) = bsum D (fun i => f (S i)).
Proof. rewrite <- seq_shift, map_map, rsum_sumf, sumf_map. reflexivity. Qed.

Lemma half_index v i : 1/2 * (v + 1 - INR (S i)) = 1/2 * (v - INR i).
Proof. rewrite S_INR. lra. Qed.

(** ** Expected statistics *)
Definition wlogdet (D : nat) (L : fm) : R := 2 * bsum D (fun i => ln (L i i)).

Definition epar (D : nat) (e : list R) (m : fv) (k : R) (W L : fm) (v : R) : Prop :=
  length e = (D + (D * D + 2))%nat /\
  (forall i, (i < D)%nat -> nth i e 0 = v * mvm D W m i) /\
  (forall i j, (i < D)%nat -> (j < D)%nat -> nth (D + (i * D + j)) e 0 = v * W i j) /\
  nth (D + D * D) e 0 = INR D / k + v * quad D W m /\
  nth (D + (D * D + 1)) e 0 = bsum D (fun i => digamma (1/2 * (v - INR i))) + INR D * ln 2 + wlogdet D L.

Lemma nw_ess_epar D p L : length (nw_mean p) = D -> is_mat D (nw_W p) -> is_chol D (mget (nw_W p)) L ->
  exists e, nw_ess p = Ok e /\ epar D e (vf (nw_mean p)) (nw_scale p) (mget (nw_W p)) L (nw_dof p).
Proof.
  intros H1 H2 H3. unfold nw_ess. rewrite (t_cholesky_ok D _ L H2 H3). cbn [bindr]. rewrite H1.
  eexists. split; [reflexivity|].
  assert (He := lmscale_is_mat D (nw_dof p) _ H2).
  assert (Ho := outer_is_mat D _ _ H1 H1).
  assert (L1 : length (lmvm (lmscale (nw_dof p) (nw_W p)) (nw_mean p)) = D)
    by (rewrite lmvm_length; destruct He; auto).
  assert (L2 := concat_flat D _ He).
  unfold epar. split; [|split; [|split; [|split]]].
  - rewrite !app_length, L1, L2. reflexivity.
  - intros i Hi. rewrite nth_app_l by lia. rewrite (lmvm_nth D) by auto. unfold mvm.
    rewrite <- bsum_scal. apply bsum_ext. intros j Hj. rewrite lmscale_get. ring.
  - intros i j Hi Hj. rewrite nth_app_r by auto. rewrite nth_app_l by (rewrite L2; now apply flat_lt).
    rewrite (concat_nth D) by auto. apply lmscale_get.
  - rewrite nth_app_r by auto. replace (D * D)%nat with (D * D + 0)%nat by lia.
    rewrite nth_app_r by auto. cbn [nth app]. f_equal.
    rewrite (trace2_bsum D) by auto. rewrite quad_bsum, <- bsum_scal. apply bsum_ext. intros i Hi.
    rewrite <- bsum_scal. apply bsum_ext. intros j Hj. rewrite lmscale_get, outer_get by lia.
    unfold vf. ring.
  - rewrite nth_app_r by auto. rewrite nth_app_r by auto. cbn [nth app].
    rewrite seq1_bsum, logdet_bsum. unfold wlogdet.
    rewrite (bsum_ext D (fun i => digamma (1/2 * (nw_dof p + 1 - INR (S i)))) (fun i => digamma (1/2 * (nw_dof p - INR i)))).
    + reflexivity.
    + intros i Hi. now rewrite half_index.
Qed.

Lemma nw_log_norm_value D p L : length (nw_mean p) = D -> is_mat D (nw_W p) -> is_chol D (mget (nw_W p)) L ->
  nw_log_norm p = Ok (1/2 * nw_dof p * wlogdet D L + 1/2 * nw_dof p * INR D * ln 2
      + 1/4 * INR D * (INR D - 1) * ln PI
      + bsum D (fun i => lgamma (1/2 * (nw_dof p - INR i)))
      - 1/2 * INR D * ln (nw_scale p) + 1/2 * INR D * ln (2 * PI)).
Proof.
  intros H1 H2 H3. unfold nw_log_norm. rewrite (t_cholesky_ok D _ L H2 H3). cbn [bindr]. rewrite H1.
  rewrite seq1_bsum, logdet_bsum.
  rewrite (bsum_ext D (fun i => lgamma (1/2 * (nw_dof p + 1 - INR (S i)))) (fun i => lgamma (1/2 * (nw_dof p - INR i))))
    by (intros i Hi; now rewrite half_index).
  reflexivity.
Qed.

(** ** Inner products of statistics and natural vectors *)
Lemma dot_flat D u w : length u = (D + (D * D + 2))%nat -> length w = (D + (D * D + 2))%nat ->
  dot u w = bsum D (fun i => nth i u 0 * nth i w 0)
    + bsum D (fun i => bsum D (fun j => nth (D + (i * D + j)) u 0 * nth (D + (i * D + j)) w 0))
    + nth (D + D * D) u 0 * nth (D + D * D) w 0
    + nth (D + (D * D + 1)) u 0 * nth (D + (D * D + 1)) w 0.
Proof.
  intros H1 H2. rewrite dot_nth by congruence. rewrite H1.
  change (sumf (fun i => nth i u 0 * nth i w 0) (seq 0 (D + (D * D + 2)))) with
    (bsum (D + (D * D + 2)) (fun i => nth i u 0 * nth i w 0)).
  rewrite !bsum_split, bsum_flat.
  replace (bsum 2 (fun i => nth (D + (D * D + i)) u 0 * nth (D + (D * D + i)) w 0)) with
    (nth (D + D * D) u 0 * nth (D + D * D) w 0
     + nth (D + (D * D + 1)) u 0 * nth (D + (D * D + 1)) w 0).
  - ring.
  - unfold bsum, sumf. cbn [seq map rsum fold_right]. rewrite !Nat.add_0_r. ring.
Qed.

(** trace of a product *)
Definition tr2 (D : nat) (A B : fm) : R := bsum D (fun i => bsum D (fun j => A i j * B i j)).

Lemma tr2_inverse D W P : msym D P -> is_inverse D W P -> tr2 D W P = INR D.
Proof.
  intros HS (H & _). unfold tr2.
  rewrite (bsum_ext D _ (fun _ => 1)).
  - unfold bsum. rewrite sumf_const, seq_length. ring.
  - intros i Hi. transitivity (mmul D W P i i).
    + unfold mmul. apply bsum_ext. intros j Hj. rewrite (HS i j) by auto. reflexivity.
    + rewrite H by auto. unfold idm. destruct (Nat.eq_dec i i); congruence.
Qed.

Lemma dot_ess_nat D e m k W L v n m' k' P' v' : epar D e m k W L v -> npar D n m' k' P' v' -> msym D W ->
  dot e n = v * k' * dotf D m (mvm D W m')
    - 1/2 * v * tr2 D W P' - 1/2 * v * k' * quad D W m'
    - 1/2 * k' * (INR D / k + v * quad D W m)
    + 1/2 * (v' - INR D) * (bsum D (fun i => digamma (1/2 * (v - INR i))) + INR D * ln 2 + wlogdet D L).
Proof.
  intros (E1 & E2 & E3 & E4 & E5) (N1 & N2 & N3 & N4 & N5) HS. rewrite (dot_flat D) by auto.
  rewrite E4, E5, N4, N5.
  assert (A : bsum D (fun i => nth i e 0 * nth i n 0) = v * k' * dotf D m (mvm D W m')).
  { rewrite dotf_mvm_T. unfold dotf. rewrite <- bsum_scal. apply bsum_ext. intros i Hi.
    rewrite E2, N2 by auto.
    assert (X : mvm D (mT W) m i = mvm D W m i).
    { apply mvm_ext; auto. intros a b Ha Hb. unfold mT. apply HS; auto. }
    rewrite X. ring. }
  rewrite A.
  assert (B : bsum D (fun i => bsum D (fun j => nth (D + (i * D + j)) e 0 * nth (D + (i * D + j)) n 0)) =
     - 1/2 * v * tr2 D W P' + - 1/2 * v * k' * quad D W m').
  { rewrite quad_bsum. unfold tr2. rewrite <- !bsum_scal, <- bsum_plus. apply bsum_ext. intros i Hi.
    rewrite <- !bsum_scal, <- bsum_plus. apply bsum_ext. intros j Hj. rewrite E3, N3 by auto. lra. }
  rewrite B. lra.
Qed.

Lemma quad_minus D A x y : msym D A ->
  quad D A (fun i => x i - y i) = quad D A x - 2 * dotf D x (mvm D A y) + quad D A y.
Proof.
  intros HS.
  assert (E : dotf D x (mvm D A y) = dotf D y (mvm D A x)).
  { rewrite dotf_mvm_T, dotf_comm. apply dotf_ext; auto. intros i Hi. apply mvm_ext; auto.
    intros a b Ha Hb. unfold mT. apply HS; auto. }
  replace (2 * dotf D x (mvm D A y)) with (dotf D x (mvm D A y) + dotf D y (mvm D A x)) by lra.
  unfold quad, dotf. rewrite <- bsum_plus, <- bsum_minus, <- bsum_plus. apply bsum_ext. intros i Hi.
  assert (M : mvm D A (fun i => x i - y i) i = mvm D A x i - mvm D A y i).
  { unfold mvm. rewrite <- bsum_minus. apply bsum_ext. intros; ring. }
  rewrite M. ring.
Qed.

(** ** Value of the divergence *)
Definition nw_kl_value (D : nat) (m m' : fv) (k k' : R) (W P' L L' : fm) (v v' : R) : R :=
  (* normal part *)
  1/2 * k' * v * quad D W (fun i => m i - m' i) + 1/2 * INR D * (k' / k - 1 - (ln k' - ln k))
  (* Wishart part *)
  + 1/2 * v' * (wlogdet D L' - wlogdet D L) + 1/2 * v * (tr2 D W P' - INR D)
  + bsum D (fun i => lgamma (1/2 * (v' - INR i)) - lgamma (1/2 * (v - INR i))
                     - digamma (1/2 * (v - INR i)) * (1/2 * (v' - v))).

Lemma nw_kl_is D p q P' L L' : nw_ok D p -> nw_ok D q -> is_inverse D (mget (nw_W q)) P' ->
  is_chol D (mget (nw_W p)) L -> is_chol D (mget (nw_W q)) L' ->
  nw_kl p q = Ok (nw_kl_value D (vf (nw_mean p)) (vf (nw_mean q)) (nw_scale p) (nw_scale q)
    (mget (nw_W p)) P' L L' (nw_dof p) (nw_dof q)).
Proof.
  intros (P1 & P2 & P3 & P4 & P5) (Q1 & Q2 & Q3 & Q4 & Q5) HP' HL HL'. unfold nw_kl.
  destruct (posdef_inverse D _ P3) as (P & _ & HP).
  destruct (nw_nat_npar D p P P1 P2 HP) as (n1 & -> & Hn1).
  destruct (nw_nat_npar D q P' Q1 Q2 HP') as (n2 & -> & Hn2).
  destruct (nw_ess_epar D p L P1 P2 HL) as (e & -> & He).
  rewrite (nw_log_norm_value D p L), (nw_log_norm_value D q L') by auto. cbn [bindr]. f_equal.
  rewrite kl_div_dot.
  assert (Ln1 : length n1 = (D + (D * D + 2))%nat) by (destruct Hn1; auto).
  assert (Ln2 : length n2 = (D + (D * D + 2))%nat) by (destruct Hn2; auto).
  assert (Le : length e = (D + (D * D + 2))%nat) by (destruct He; auto).
  assert (Ed : dot e (vsub n2 n1) = dot e n2 - dot e n1).
  { rewrite (dot_vsub_nth (D + (D * D + 2))) by auto. rewrite !dot_nth by congruence. rewrite Le.
    rewrite <- sumf_minus. apply sumf_ext. intros; ring. }
  assert (HS : msym D (mget (nw_W p))) by (destruct P3; auto).
  rewrite Ed, (dot_ess_nat D e _ _ _ _ _ n2 _ _ _ _ He Hn2 HS), (dot_ess_nat D e _ _ _ _ _ n1 _ _ _ _ He Hn1 HS).
  rewrite (tr2_inverse D _ P) by (auto; eapply inverse_msym; eauto).
  unfold nw_kl_value. rewrite quad_minus by auto.
  rewrite (bsum_ext D (fun i => lgamma (1/2 * (nw_dof q - INR i)) - lgamma (1/2 * (nw_dof p - INR i))
     - digamma (1/2 * (nw_dof p - INR i)) * (1/2 * (nw_dof q - nw_dof p)))
     (fun i => (lgamma (1/2 * (nw_dof q - INR i)) - lgamma (1/2 * (nw_dof p - INR i)))
     - (1/2 * (nw_dof q - nw_dof p)) * digamma (1/2 * (nw_dof p - INR i)))) by (intros; ring).
  rewrite bsum_minus, bsum_minus, bsum_scal.
  change (dotf D (vf (nw_mean p)) (mvm D (mget (nw_W p)) (vf (nw_mean p)))) with (quad D (mget (nw_W p)) (vf (nw_mean p))).
  field. lra.
Qed.

(** ** Non-negativity *)
Lemma shift_xlnx a a' s : 0 <= s -> s < a -> s < a' ->
  a' * (ln a' - ln a) <= (a' - s) * (ln (a' - s) - ln (a - s)).
Proof.
  intros Hs Ha Ha'. set (c := a' / a). assert (Hc : 0 < c) by (apply Rdiv_lt_0_compat; lra).
  assert (Elc : ln c = ln a' - ln a) by (apply ln_div; lra).
  assert (B := bphi_nonneg (a' - s) (c * (a - s)) ltac:(lra) ltac:(apply Rmult_lt_0_compat; lra)).
  unfold bphi in B. rewrite ln_div in B by (try lra; apply Rmult_lt_0_compat; lra).
  rewrite ln_mult in B by lra.
  assert (T := ln_le_sub1 c Hc).
  assert (Eca : c * a = a') by (unfold c; field; lra).
  assert (0 <= s * (c - 1 - ln c)) by (apply Rmult_le_pos; lra).
  rewrite <- Elc.
  replace ((a' - s) * (ln (a' - s) - (ln c + ln (a - s)))) with
    ((a' - s) * (ln (a' - s) - ln (a - s)) - a' * ln c + s * ln c) in B by ring.
  replace (c * (a - s)) with (a' - c * s) in B by (rewrite <- Eca; ring). lra.
Qed.

Lemma wishart_term_nonneg A A' s t : 0 <= s -> s < A -> s < A' -> 0 < t ->
  0 <= - A' * ln t + A * (t - 1) +
    (lgamma (A' - s) - lgamma (A - s) - digamma (A - s) * (A' - A)).
Proof.
  intros Hs HA HA' Ht.
  assert (T := lgamma_tangent (A' - s) (A - s) ltac:(lra) ltac:(lra)). unfold bphi in T.
  rewrite ln_div in T by lra. replace (A' - s - (A - s)) with (A' - A) in T by ring.
  assert (S := shift_xlnx A A' s Hs HA HA').
  assert (B := bphi_nonneg A' (A * t) ltac:(lra) ltac:(apply Rmult_lt_0_compat; lra)).
  unfold bphi in B. rewrite ln_div in B by (try lra; apply Rmult_lt_0_compat; lra).
  rewrite ln_mult in B by lra.
  replace (A' * (ln A' - (ln A + ln t))) with (A' * (ln A' - ln A) - A' * ln t) in B by ring. lra.
Qed.

(** tr(W P') >= sum of the squared ratios of the diagonals *)
Lemma tr2_chol D W W' P' L L' : is_chol D W L -> is_chol D W' L' -> is_inverse D W' P' ->
  bsum D (fun i => (L i i / L' i i) ^ 2) <= tr2 D W P'.
Proof.
  intros (C1 & C2 & C3) (C1' & C2' & C3') HP'.
  destruct (minv_complete D L' (lower_kernel D L' C1' C2')) as (T & ET). apply minv_sound in ET.
  destruct (lower_inverse D L' T C1' C2' ET) as (TL & TD).
  (* P' = T^T T *)
  assert (EP : meq D P' (mmul D (mT T) T)).
  { assert (I : is_inverse D W' (mmul D (mT T) T)).
    { assert (IT := is_inverse_T D L' T ET). destruct ET as (I1 & I2), IT as (J1 & J2). split.
      - eapply meq_trans; [apply (mmul_ext D W' (mmul D L' (mT L'))); [apply meq_sym; exact C3'|apply meq_refl]|].
        intros i j Hi Hj. rewrite mmul_assoc.
        transitivity (mmul D L' T i j); [|apply I1; auto].
        apply mmul_ext; auto using meq_refl. intros a b Ha Hb. rewrite <- mmul_assoc.
        transitivity (mmul D idm T a b); [apply mmul_ext; auto using meq_refl|now apply mmul_idm_l].
      - eapply meq_trans; [apply (mmul_ext D _ (mmul D (mT T) T) W' (mmul D L' (mT L'))); [apply meq_refl|apply meq_sym; exact C3']|].
        intros i j Hi Hj. rewrite mmul_assoc.
        transitivity (mmul D (mT T) (mT L') i j); [|apply J2; auto].
        apply mmul_ext; auto using meq_refl. intros a b Ha Hb. rewrite <- mmul_assoc.
        transitivity (mmul D idm (mT L') a b); [apply mmul_ext; auto using meq_refl|now apply mmul_idm_l]. }
    eapply inverse_unique; [apply HP'|apply I]. }
  set (K := mmul D T L).
  assert (Etr : tr2 D W P' = bsum D (fun a => bsum D (fun b => K a b ^ 2))).
  { transitivity (bsum D (fun i => bsum D (fun j => mmul D L (mT L) i j * mmul D (mT T) T i j))).
    { unfold tr2. apply bsum_ext. intros i Hi. apply bsum_ext. intros j Hj. rewrite EP by auto.
      rewrite <- C3 by auto. reflexivity. }
    unfold K, mmul, mT.
    transitivity (bsum D (fun i => bsum D (fun j => bsum D (fun a => bsum D (fun b => T a i * L i b * (T a j * L j b)))))).
    { apply bsum_ext. intros i Hi. apply bsum_ext. intros j Hj. rewrite Rmult_comm, <- bsum_scal_r.
      apply bsum_ext. intros a Ha. rewrite <- bsum_scal. apply bsum_ext. intros b Hb. ring. }
    rewrite (bsum_ext D (fun a => bsum D (fun b => bsum D (fun k => T a k * L k b) ^ 2))
      (fun a => bsum D (fun b => bsum D (fun i => bsum D (fun j => T a i * L i b * (T a j * L j b)))))).
    2:{ intros a Ha. apply bsum_ext. intros b Hb.
        replace (bsum D (fun k => T a k * L k b) ^ 2) with (bsum D (fun k => T a k * L k b) * bsum D (fun k => T a k * L k b)) by ring.
        rewrite <- bsum_scal_r. apply bsum_ext. intros i Hi. rewrite <- bsum_scal. apply bsum_ext. intros; ring. }
    transitivity (bsum D (fun i => bsum D (fun a => bsum D (fun j => bsum D (fun b => T a i * L i b * (T a j * L j b)))))).
    { apply bsum_ext. intros i Hi. apply bsum_swap. }
    rewrite bsum_swap. apply bsum_ext. intros a Ha.
    transitivity (bsum D (fun i => bsum D (fun b => bsum D (fun j => T a i * L i b * (T a j * L j b))))).
    { apply bsum_ext. intros i Hi. apply bsum_swap. }
    apply bsum_swap. }
  rewrite Etr. apply bsum_le. intros i Hi.
  assert (EK : K i i = L i i / L' i i).
  { unfold K, mmul. rewrite (bsum_single D _ i); auto.
    - rewrite TD by auto. field. apply Rgt_not_eq. apply C2'. auto.
    - intros j Hj Hji. destruct (lt_dec i j) as [A|A].
      + rewrite (TL i j) by auto. ring.
      + rewrite (C1 j i) by (auto; lia). ring. }
  rewrite <- EK. apply (bsum_ge_term D (fun b => K i b ^ 2) i); auto. intros; apply pow2_ge_0.
Qed.

Lemma nw_kl_nonneg D p q : nw_ok D p -> nw_ok D q -> exists kl, nw_kl p q = Ok kl /\ 0 <= kl.
Proof.
  intros Op Oq. assert (Op' := Op). assert (Oq' := Oq).
  destruct Op' as (P1 & P2 & P3 & P4 & P5), Oq' as (Q1 & Q2 & Q3 & Q4 & Q5).
  destruct (posdef_inverse D _ Q3) as (P' & _ & HP').
  destruct (chol_complete D _ P3) as (L & _ & HL). destruct (chol_complete D _ Q3) as (L' & _ & HL').
  eexists. split; [apply (nw_kl_is D p q P' L L'); auto|].
  unfold nw_kl_value.
  set (v := nw_dof p). set (v' := nw_dof q). set (k := nw_scale p). set (k' := nw_scale q).
  assert (T := tr2_chol D _ _ P' L L' HL HL' HP').
  destruct HL as (_ & DL & _), HL' as (_ & DL' & _).
  assert (Hsc : 0 <= 1/2 * INR D * (k' / k - 1 - (ln k' - ln k))).
  { apply Rmult_le_pos; [assert (X := pos_INR D); lra|now apply scale_kl_nonneg]. }
  assert (Hv : forall i, (i < D)%nat -> INR i < v /\ INR i < v').
  { intros i Hi. assert (X : INR i <= INR D - 1).
    { assert (Y : INR (S i) <= INR D) by (apply le_INR; lia). rewrite S_INR in Y. lra. }
    unfold v, v'. lra. }
  destruct (Nat.eq_dec D 0) as [ED|ED].
  - rewrite ED. unfold wlogdet, tr2, quad, dotf. rewrite !bsum_0.
    simpl INR. lra.
  - assert (V : 0 < v).
    { destruct (Hv 0%nat ltac:(lia)) as (X & _). simpl in X. exact X. }
    assert (Hq : 0 <= 1/2 * k' * v * quad D (mget (nw_W p)) (fun i => vf (nw_mean p) i - vf (nw_mean q) i)).
    { apply Rmult_le_pos.
      - apply Rmult_le_pos; [unfold k'|]; lra.
      - destruct (nonzero_dec D (fun i => vf (nw_mean p) i - vf (nw_mean q) i)) as [N|N].
        + destruct P3 as (_ & X). apply Rlt_le. now apply X.
        + apply Req_le. symmetry. unfold quad, dotf. apply bsum_zero. intros i Hi. rewrite N by auto. ring. }
    assert (Hwish : 0 <= bsum D (fun i =>
       - (1/2 * v') * ln ((L i i / L' i i) ^ 2) + 1/2 * v * ((L i i / L' i i) ^ 2 - 1)
       + (lgamma (1/2 * (v' - INR i)) - lgamma (1/2 * (v - INR i))
          - digamma (1/2 * (v - INR i)) * (1/2 * (v' - v))))).
    { apply bsum_nonneg. intros i Hi. destruct (Hv i Hi) as (A & B).
      assert (Ht : 0 < (L i i / L' i i) ^ 2) by (apply pow_lt, Rdiv_lt_0_compat; auto).
      assert (W := wishart_term_nonneg (1/2 * v) (1/2 * v') (1/2 * INR i) _
        ltac:(assert (X := pos_INR i); lra) ltac:(lra) ltac:(lra) Ht).
      replace (1/2 * (v' - INR i)) with (1/2 * v' - 1/2 * INR i) by ring.
      replace (1/2 * (v - INR i)) with (1/2 * v - 1/2 * INR i) by ring.
      replace (1/2 * (v' - v)) with (1/2 * v' - 1/2 * v) by ring. exact W. }
    rewrite bsum_plus, bsum_plus in Hwish.
    assert (E1 : bsum D (fun i => - (1/2 * v') * ln ((L i i / L' i i) ^ 2)) = 1/2 * v' * (wlogdet D L' - wlogdet D L)).
    { unfold wlogdet. rewrite <- !bsum_scal, <- bsum_minus, <- bsum_scal. apply bsum_ext. intros i Hi.
      assert (X := DL i Hi). assert (Y := DL' i Hi).
      replace ((L i i / L' i i) ^ 2) with ((L i i / L' i i) * (L i i / L' i i)) by ring.
      rewrite ln_mult, ln_div by (auto; apply Rdiv_lt_0_compat; auto). ring. }
    assert (E2 : bsum D (fun i => 1/2 * v * ((L i i / L' i i) ^ 2 - 1)) =
      1/2 * v * (bsum D (fun i => (L i i / L' i i) ^ 2) - INR D)).
    { rewrite bsum_scal, bsum_minus. f_equal. f_equal. unfold bsum. rewrite sumf_const, seq_length. ring. }
    rewrite E1, E2 in Hwish.
    assert (0 <= 1/2 * v * (tr2 D (mget (nw_W p)) P' - bsum D (fun i => (L i i / L' i i) ^ 2)))
      by (apply Rmult_le_pos; lra).
    fold v v' in Hwish |- *. lra.
Qed.

Lemma nw_kl_self D p : nw_ok D p -> nw_kl p p = Ok 0.
Proof.
  intros Op. destruct (nw_ok_npar D p Op) as (n & P & E & _ & _ & Hn). destruct Op as (P1 & P2 & P3 & P4 & P5).
  destruct (chol_complete D _ P3) as (L & _ & HL).
  destruct (nw_ess_epar D p L P1 P2 HL) as (e & Ee & He). unfold nw_kl.
  rewrite E, Ee, (nw_log_norm_value D p L) by auto. cbn [bindr]. f_equal.
  destruct Hn as (Ln & _), He as (Le & _). eapply kl_self; eauto.
Qed.

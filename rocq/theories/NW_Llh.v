(** Likelihood with full covariance and the full covariance Normal. *)
From Coq Require Import Reals List Arith Bool Lia Lra.
From Verif Require Import Prelude Vec Gibbs Lgamma Dist_Model Dist_Spec Dist_Proofs NG_Proofs KL_Proofs Llh_Proofs Mat MatDet NW_Model NW_Spec LMat NW_Proofs NW_KL.
Import ListNotations.
Local Open Scope R_scope.

(** ** Strictly lower triangle in row major order *)
Fixpoint tri (n : nat) : nat := match n with O => O | S m => (tri m + m)%nat end.

Lemma tri_closed n : (n * (n - 1) / 2 = tri n)%nat.
Proof.
  assert (E : (n * (n - 1) = tri n * 2)%nat).
  { induction n as [|m IH]; [reflexivity|]. cbn [tri]. destruct m; [reflexivity|].
    replace (S (S m) - 1)%nat with (S m) by lia. replace (S m - 1)%nat with m in IH by lia. lia. }
  rewrite E. now apply Nat.div_mul.
Qed.

Lemma tri_le a b : (a <= b)%nat -> (tri a <= tri b)%nat.
Proof. induction 1; cbn [tri]; lia. Qed.

Definition tril_rows (d : nat) : list (nat * nat) := flat_map (fun i => map (pair i) (seq 0 i)) (seq 0 d).

Lemma filter_lt_seq i d : (i <= d)%nat -> filter (fun j => Nat.ltb j i) (seq 0 d) = seq 0 i.
Proof.
  intros H. replace d with (i + (d - i))%nat by lia. rewrite seq_app, filter_app.
  rewrite <- (app_nil_r (seq 0 i)) at 2. f_equal.
  - assert (G : forall l, (forall j, In j l -> (j < i)%nat) -> filter (fun j => Nat.ltb j i) l = l).
    { induction l as [|a l IH]; intros Hl; [reflexivity|]. simpl.
      rewrite (proj2 (Nat.ltb_lt a i)) by (apply Hl; now left). f_equal. apply IH. intros; apply Hl; now right. }
    apply G. intros j Hj. apply in_seq in Hj. lia.
  - assert (G : forall l, (forall j, In j l -> (i <= j)%nat) -> filter (fun j => Nat.ltb j i) l = []).
    { induction l as [|a l IH]; intros Hl; [reflexivity|]. simpl.
      rewrite (proj2 (Nat.ltb_ge a i)) by (apply Hl; now left). apply IH. intros; apply Hl; now right. }
    apply G. intros j Hj. apply in_seq in Hj. lia.
Qed.

Lemma filter_pair_map i (l : list nat) :
  filter (fun ij => Nat.ltb (snd ij) (fst ij)) (map (pair i) l) = map (pair i) (filter (fun j => Nat.ltb j i) l).
Proof. induction l as [|a l IH]; [reflexivity|]. simpl. destruct (Nat.ltb a i); simpl; now rewrite IH. Qed.

Lemma tril_idxs_rows d : tril_idxs d = tril_rows d.
Proof.
  unfold tril_idxs, tril_rows.
  assert (G : forall l, (forall i, In i l -> (i <= d)%nat) ->
    filter (fun ij => Nat.ltb (snd ij) (fst ij)) (list_prod l (seq 0 d)) = flat_map (fun i => map (pair i) (seq 0 i)) l).
  { induction l as [|a l IH]; intros Hl; [reflexivity|]. simpl. rewrite filter_app, filter_pair_map, filter_lt_seq by (apply Hl; now left).
    f_equal. apply IH. intros; apply Hl; now right. }
  apply G. intros i Hi. apply in_seq in Hi. lia.
Qed.

Lemma tril_rows_S d : tril_rows (S d) = tril_rows d ++ map (pair d) (seq 0 d).
Proof. unfold tril_rows. rewrite seq_S, flat_map_app. cbn [flat_map plus]. now rewrite app_nil_r. Qed.

Lemma tril_rows_length d : length (tril_rows d) = tri d.
Proof.
  induction d as [|d IH]; [reflexivity|]. rewrite tril_rows_S, app_length, map_length, seq_length, IH. reflexivity.
Qed.

Lemma tril_rows_nth d i j : (j < i)%nat -> (i < d)%nat -> nth (tri i + j) (tril_rows d) (0%nat, 0%nat) = (i, j).
Proof.
  intros Hj. induction d as [|d IH]; intros Hi; [lia|]. rewrite tril_rows_S.
  destruct (Nat.eq_dec i d) as [->|Hne].
  - rewrite app_nth2 by (rewrite tril_rows_length; lia). rewrite tril_rows_length.
    replace (tri d + j - tri d)%nat with j by lia.
    rewrite (nth_indep _ (0%nat, 0%nat) (pair d 0%nat)) by (rewrite map_length, seq_length; lia).
    rewrite map_nth, seq_nth by lia. reflexivity.
  - rewrite app_nth1; [apply IH; lia|]. rewrite tril_rows_length.
    assert (T := tri_le (S i) d ltac:(lia)). cbn [tri] in T. lia.
Qed.

Lemma tril_rows_in d i j : In (i, j) (tril_rows d) -> (j < i)%nat /\ (i < d)%nat.
Proof.
  unfold tril_rows. rewrite in_flat_map. intros (a & Ha & H). apply in_map_iff in H.
  destruct H as (b & E & Hb). apply in_seq in Ha, Hb. injection E as -> ->. lia.
Qed.

Lemma tril_rows_NoDup d : NoDup (tril_rows d).
Proof.
  induction d as [|d IH]; [constructor|]. rewrite tril_rows_S.
  assert (G : forall l1 l2 : list (nat * nat), NoDup l1 -> NoDup l2 -> (forall x, In x l1 -> ~ In x l2) -> NoDup (l1 ++ l2)).
  { induction l1 as [|a l1 IH1]; intros l2 N1 N2 H; [exact N2|]. inversion N1; subst. simpl. constructor.
    - rewrite in_app_iff. intros [A|A]; [contradiction|]. apply (H a); [now left|exact A].
    - apply IH1; auto. intros x Hx. apply H. now right. }
  apply G; auto.
  - apply FinFun.Injective_map_NoDup; [intros a b E; now injection E|apply seq_NoDup].
  - intros (a, b) H1 H2. apply tril_rows_in in H1. apply in_map_iff in H2. destruct H2 as (c & E & _).
    injection E as -> ->. lia.
Qed.

Lemma entry_nth keys vals p i j : NoDup keys -> (p < length keys)%nat -> length keys = length vals ->
  nth p keys (0%nat, 0%nat) = (i, j) -> entry (combine keys vals) i j = nth p vals 0.
Proof.
  intros ND Hp HL HN. unfold entry.
  revert vals p Hp HL HN. induction keys as [|[a b] keys IH]; intros [|x vals] p Hp HL HN; simpl in *; try lia.
  inversion ND as [|? ? Hnin ND']; subst. destruct p as [|p].
  - injection HN as -> ->. rewrite !Nat.eqb_refl. reflexivity.
  - destruct (Nat.eqb a i && Nat.eqb b j) eqn:E.
    + exfalso. apply andb_prop in E. destruct E as (E1 & E2). apply Nat.eqb_eq in E1, E2. subst.
      apply Hnin. rewrite <- HN. apply nth_In. lia.
    + apply IH; auto; lia.
Qed.

Lemma entry_out keys vals i j : ~ In (i, j) keys -> entry (combine keys vals) i j = 0.
Proof.
  unfold entry. intros H. destruct (find _ _) as [e|] eqn:E; [|reflexivity]. exfalso.
  apply find_some in E. destruct E as (Hin & Hb). destruct e as ((a, b), x). simpl in Hb.
  apply andb_prop in Hb. destruct Hb as (E1 & E2). apply Nat.eqb_eq in E1, E2. subst.
  apply H. eapply in_combine_l; eauto.
Qed.

(** Entries of the factor *)
Definition rfactor (D : nat) (r : list R) : fm := fun i j =>
  if Nat.ltb j i then nth (2 * D + (tri i + j)) r 0 else if Nat.eqb i j then exp (1/2 * nth (D + i) r 0) else 0.

Lemma nl_factor_is D r : length r = (2 * D + tri D)%nat -> nl_factor D r = mk D (rfactor D r).
Proof.
  intros Hr. unfold nl_factor. apply mk_ext. intros i j Hi Hj. unfold rfactor. rewrite tril_idxs_rows.
  destruct (Nat.eqb_spec i j) as [->|Hne].
  - rewrite Nat.ltb_irrefl. rewrite map_nth_R by (rewrite slice_length; lia). rewrite slice_nth by lia. reflexivity.
  - destruct (Nat.ltb_spec j i) as [Hlt|Hge].
    + rewrite (entry_nth _ _ (tri i + j)).
      * apply skipn_nth.
      * apply tril_rows_NoDup.
      * rewrite tril_rows_length. assert (T := tri_le (S i) D ltac:(lia)). cbn [tri] in T. lia.
      * rewrite tril_rows_length, skipn_length. lia.
      * now apply tril_rows_nth.
    + apply entry_out. intros H. apply tril_rows_in in H. lia.
Qed.

Lemma rfactor_lower D r : lower D (rfactor D r).
Proof.
  intros i j Hi Hj Hij. unfold rfactor. destruct (Nat.ltb_spec j i); [lia|].
  destruct (Nat.eqb_spec i j); [lia|reflexivity].
Qed.

Lemma rfactor_diag D r i : rfactor D r i i = exp (1/2 * nth (D + i) r 0).
Proof. unfold rfactor. now rewrite Nat.ltb_irrefl, Nat.eqb_refl. Qed.

Lemma rfactor_pos D r : pos_diag D (rfactor D r).
Proof. intros i Hi. rewrite rfactor_diag. apply exp_pos. Qed.

(** ** Natural form of (mean, precision) *)
Definition gnat (D : nat) (n : list R) (m : fv) (P : fm) (ld : R) : Prop :=
  length n = (D + (D * D + 2))%nat /\
  (forall i, (i < D)%nat -> nth i n 0 = mvm D P m i) /\
  (forall i j, (i < D)%nat -> (j < D)%nat -> nth (D + (i * D + j)) n 0 = P i j) /\
  nth (D + D * D) n 0 = quad D P m /\ nth (D + (D * D + 1)) n 0 = ld.

Lemma gram_get D L : meq D (mget (gram D (mk D L))) (mmul D L (mT L)).
Proof.
  intros i j Hi Hj. unfold gram. rewrite mget_mk by auto.
  assert (RL : forall a, (a < D)%nat -> length (nth a (mk D L) []) = D) by (intros; apply is_mat_row; auto using is_mat_mk).
  rewrite (dot_dotf D) by auto. unfold dotf, mmul, mT. apply bsum_ext. intros k Hk. unfold vf.
  change (nth k (nth i (mk D L) []) 0) with (mget (mk D L) i k).
  change (nth k (nth j (mk D L) []) 0) with (mget (mk D L) j k).
  now rewrite !mget_mk by auto.
Qed.

Lemma nl_pdfvec_gnat D r : length r = (2 * D + tri D)%nat ->
  exists n, nl_pdfvec_from_rvec D r = Ok n /\
    gnat D n (vf (firstn D r)) (mmul D (rfactor D r) (mT (rfactor D r))) (bsum D (fun i => nth (D + i) r 0)).
Proof.
  intros Hr. unfold nl_pdfvec_from_rvec. rewrite tri_closed, Hr, Nat.eqb_refl.
  eexists. split; [reflexivity|]. rewrite (nl_factor_is D r Hr).
  set (L := rfactor D r). set (m := firstn D r).
  assert (Lm : length m = D) by (unfold m; rewrite firstn_length; lia).
  assert (Hg : is_mat D (gram D (mk D L))) by apply is_mat_mk.
  assert (L1 : length (lmvm (gram D (mk D L)) m) = D) by (rewrite lmvm_length; apply Hg).
  assert (L2 := concat_flat D _ Hg).
  unfold gnat. split; [|split; [|split; [|split]]].
  - rewrite !app_length, L1, L2. reflexivity.
  - intros i Hi. rewrite nth_app_l by lia. rewrite (lmvm_nth D) by auto. apply mvm_ext; auto. apply gram_get.
  - intros i j Hi Hj. rewrite nth_app_r by auto. rewrite nth_app_l by (rewrite L2; now apply flat_lt).
    rewrite (concat_nth D) by auto. now apply gram_get.
  - rewrite nth_app_r by auto. replace (D * D)%nat with (D * D + 0)%nat by lia.
    rewrite nth_app_r by auto. cbn [nth app]. rewrite quad_factor.
    rewrite (dot_dotf D) by (now rewrite map_length, seq_length). unfold dotf. apply bsum_ext. intros i Hi.
    unfold vf. rewrite !map_seq_nth by auto. rewrite rsum_sumf, sumf_map.
    change (sumf (fun k => mget (mk D L) k i * nth k m 0) (seq 0 D)) with (bsum D (fun k => mget (mk D L) k i * nth k m 0)).
    rewrite (bsum_ext D _ (fun k => mT L i k * vf m k)).
    + unfold mvm, vf. ring.
    + intros k Hk. rewrite mget_mk by auto. reflexivity.
  - rewrite nth_app_r by auto. rewrite nth_app_r by auto. cbn [nth app].
    rewrite rsum_nth, slice_length by lia. replace (2 * D - D)%nat with D by lia.
    apply sumf_ext. intros i Hi. apply in_seq in Hi. apply slice_nth. lia.
Qed.

(** ** Density *)
Lemma gauss_logpdf_quad D L m x :
  gauss_logpdf D L m x = - (1/2) * quad D (mmul D L (mT L)) (fun i => nth i x 0 - nth i m 0)
    + bsum D (fun i => ln (L i i)) + - (1/2) * INR D * ln (2 * PI).
Proof.
  unfold gauss_logpdf. rewrite quad_factor.
  set (y := mvm D (mT L) (fun i => nth i x 0 - nth i m 0)).
  transitivity (bsum D (fun i => (- (1/2) * y i ^ 2 + ln (L i i)) + - (1/2) * ln (2 * PI))).
  - apply bsum_ext. intros i Hi. rewrite ln_gauss_pdf by lra. rewrite ln_1.
    change (sumf (fun k => L k i * (nth k x 0 - nth k m 0)) (seq 0 D)) with (y i).
    lra.
  - rewrite bsum_plus, bsum_plus, bsum_scal. unfold bsum at 3. rewrite sumf_const, seq_length. ring.
Qed.

Lemma nl_llh_gnat D n m P ld x : gnat D n m P ld -> length x = D -> msym D P ->
  nl_llh D n (nl_suff_stats x) =
  - (1/2) * quad D P (fun i => nth i x 0 - m i) + 1/2 * ld + - (1/2) * INR D * ln (2 * PI).
Proof.
  intros (G1 & G2 & G3 & G4 & G5) Hx HS. unfold nl_llh. f_equal.
  assert (Ls := nl_suff_length D x Hx). destruct (nl_suff_npar D x Hx) as (S1 & S2 & S3 & S4).
  rewrite (dot_flat D) by auto. rewrite S3, S4, G4, G5.
  change (fun i => nth i x 0 - m i) with (fun i => vf x i - m i).
  rewrite quad_minus by auto.
  assert (A : bsum D (fun i => nth i (nl_suff_stats x) 0 * nth i n 0) = dotf D (vf x) (mvm D P m)).
  { apply bsum_ext. intros i Hi. rewrite S1, G2 by auto. reflexivity. }
  assert (B : bsum D (fun i => bsum D (fun j => nth (D + (i * D + j)) (nl_suff_stats x) 0 * nth (D + (i * D + j)) n 0))
    = - (1/2) * quad D P (vf x)).
  { rewrite quad_bsum, <- bsum_scal. apply bsum_ext. intros i Hi. rewrite <- bsum_scal. apply bsum_ext.
    intros j Hj. rewrite S2, G3 by auto. unfold vf. ring. }
  rewrite A, B. lra.
Qed.

Lemma chol_msym D P L : is_chol D P L -> msym D P.
Proof. intros H. apply (is_chol_posdef D P L H). Qed.

Lemma nl_llh_density D n m P L x : gnat D n (vf m) P (2 * bsum D (fun i => ln (L i i))) -> is_chol D P L ->
  length x = D -> nl_llh D n (nl_suff_stats x) = gauss_logpdf D L m x.
Proof.
  intros Hn HL Hx. rewrite (nl_llh_gnat D n _ _ _ x Hn Hx (chol_msym D P L HL)), gauss_logpdf_quad.
  rewrite (quad_ext D P (mmul D L (mT L)) _ (fun i => nth i x 0 - nth i m 0)).
  - lra.
  - apply meq_sym. apply HL.
  - reflexivity.
Qed.

(** ** Reading the parameters back *)
Lemma nl_params_gnat D n m P ld : gnat D n (vf m) P ld -> length m = D -> posdef D P ->
  exists prec, nl_params_from_pdfvec D n = Ok (m, prec) /\ is_mat D prec /\ meq D (mget prec) P.
Proof.
  intros (G1 & G2 & G3 & G4 & G5) Hm HP. unfold nl_params_from_pdfvec.
  assert (Ls : length (slice D (D + D * D) n) = (D * D)%nat) by (rewrite slice_length; lia).
  assert (Hr := reshape_is_mat D _ Ls).
  assert (EP : meq D (mget (reshape_sq D (slice D (D + D * D) n))) P).
  { intros i j Hi Hj. rewrite reshape_get by auto. rewrite slice_nth by (assert (T := flat_lt D i j Hi Hj); lia). auto. }
  destruct (posdef_inverse D P HP) as (W & _ & HW).
  assert (HI : is_inverse D (mget (reshape_sq D (slice D (D + D * D) n))) W).
  { eapply is_inverse_ext; [apply meq_sym, EP|apply meq_refl|exact HW]. }
  rewrite (t_inverse_ok D _ W Hr HI). cbn [bindr]. eexists. split; [f_equal; f_equal|split; [exact Hr|exact EP]].
  assert (Lf : length (firstn D n) = D) by (rewrite firstn_length; lia).
  apply vec_ext; [rewrite lmvm_length, mk_length; auto|]. rewrite lmvm_length, mk_length.
  intros i Hi. rewrite (lmvm_nth D) by (auto using is_mat_mk).
  transitivity (mvm D W (mvm D P (vf m)) i).
  - apply mvm_ext; auto using mk_meq. intros k Hk. unfold vf. rewrite firstn_nth_lt by auto. auto.
  - rewrite <- mvm_mmul. transitivity (mvm D idm (vf m) i); [|now apply mvm_idm].
    apply mvm_ext; auto. apply HW.
Qed.

(** ** Expected log-likelihood *)
Lemma nw_exp_llh D p L x : nw_ok D p -> is_chol D (mget (nw_W p)) L -> length x = D ->
  exists e, nw_ess p = Ok e /\
  nl_llh D e (nl_suff_stats x) =
    - (1/2) * nw_dof p * quad D (mget (nw_W p)) (fun i => nth i x 0 - nth i (nw_mean p) 0)
    - 1/2 * INR D / nw_scale p
    + 1/2 * (bsum D (fun i => digamma (1/2 * (nw_dof p - INR i))) + INR D * ln 2 + 2 * bsum D (fun i => ln (L i i)))
    + - (1/2) * INR D * ln (2 * PI).
Proof.
  intros (P1 & P2 & P3 & P4 & P5) HL Hx. destruct (nw_ess_epar D p L P1 P2 HL) as (e & Ee & G1 & G2 & G3 & G4 & G5).
  exists e. split; [exact Ee|]. unfold nl_llh. f_equal.
  assert (Ls := nl_suff_length D x Hx). destruct (nl_suff_npar D x Hx) as (S1 & S2 & S3 & S4).
  rewrite (dot_flat D) by auto. rewrite S3, S4, G4, G5.
  change (fun i => nth i x 0 - nth i (nw_mean p) 0) with (fun i => vf x i - vf (nw_mean p) i).
  rewrite quad_minus by (destruct P3; auto).
  assert (A : bsum D (fun i => nth i (nl_suff_stats x) 0 * nth i e 0) = nw_dof p * dotf D (vf x) (mvm D (mget (nw_W p)) (vf (nw_mean p)))).
  { unfold dotf. rewrite <- bsum_scal. apply bsum_ext. intros i Hi. rewrite S1, G2 by auto. unfold vf at 2. ring. }
  assert (B : bsum D (fun i => bsum D (fun j => nth (D + (i * D + j)) (nl_suff_stats x) 0 * nth (D + (i * D + j)) e 0))
    = - (1/2) * nw_dof p * quad D (mget (nw_W p)) (vf x)).
  { rewrite quad_bsum, <- bsum_scal. apply bsum_ext. intros i Hi. rewrite <- bsum_scal. apply bsum_ext.
    intros j Hj. rewrite S2, G3 by auto. unfold vf. ring. }
  rewrite A, B. unfold wlogdet. field. lra.
Qed.

Lemma chol_scale D W L c : 0 < c -> is_chol D W L -> is_chol D (fun i j => c * W i j) (fun i j => sqrt c * L i j).
Proof.
  intros Hc (C1 & C2 & C3). assert (Hs := sqrt_lt_R0 c Hc). split; [|split].
  - intros i j Hi Hj Hij. rewrite C1 by auto. ring.
  - intros i Hi. apply Rmult_lt_0_compat; auto.
  - intros i j Hi Hj. rewrite <- C3 by auto. unfold mmul, mT. rewrite <- bsum_scal. apply bsum_ext. intros k Hk.
    transitivity (sqrt c * sqrt c * (L i k * L j k)); [ring|]. now rewrite sqrt_sqrt by lra.
Qed.

(** ** Full covariance Normal *)
Lemma nf_nat_value D p P : length (nf_mean p) = D -> is_mat D (nf_cov p) -> is_inverse D (mget (nf_cov p)) P ->
  exists n, nf_nat p = Ok n /\ length n = (D + D * D)%nat /\
    (forall i, (i < D)%nat -> nth i n 0 = mvm D P (vf (nf_mean p)) i) /\
    (forall i j, (i < D)%nat -> (j < D)%nat -> nth (D + (i * D + j)) n 0 = P i j).
Proof.
  intros H1 H2 H3. unfold nf_nat. rewrite (t_inverse_ok D _ P H2 H3). cbn [bindr].
  eexists. split; [reflexivity|].
  assert (L1 : length (lmvm (mk D P) (nf_mean p)) = D) by (rewrite lmvm_length; apply mk_length).
  assert (L2 := concat_flat D _ (is_mat_mk D P)). split; [|split].
  - rewrite app_length, L1, L2. reflexivity.
  - intros i Hi. rewrite nth_app_l by lia. rewrite (lmvm_nth D) by (auto using is_mat_mk).
    apply mvm_ext; auto using mk_meq.
  - intros i j Hi Hj. rewrite nth_app_r by auto. rewrite (concat_nth D) by (auto using is_mat_mk). now apply mget_mk.
Qed.

Lemma dot_flat0 D u w : length u = (D + D * D)%nat -> length w = (D + D * D)%nat ->
  dot u w = bsum D (fun i => nth i u 0 * nth i w 0)
    + bsum D (fun i => bsum D (fun j => nth (D + (i * D + j)) u 0 * nth (D + (i * D + j)) w 0)).
Proof.
  intros H1 H2. rewrite dot_nth by congruence. rewrite H1.
  change (sumf (fun i => nth i u 0 * nth i w 0) (seq 0 (D + D * D))) with
    (bsum (D + D * D) (fun i => nth i u 0 * nth i w 0)).
  now rewrite bsum_split, bsum_flat.
Qed.

Lemma nf_suff_value D x : length x = D -> length (nf_suff_stats x) = (D + D * D)%nat /\
  (forall i, (i < D)%nat -> nth i (nf_suff_stats x) 0 = nth i x 0) /\
  (forall i j, (i < D)%nat -> (j < D)%nat ->
     nth (D + (i * D + j)) (nf_suff_stats x) 0 = - (1/2) * (nth i x 0 * nth j x 0)).
Proof.
  intros H. unfold nf_suff_stats. assert (Ho := outer_is_mat D x x H H).
  assert (L2 : length (vscale (- (1/2)) (concat (outer x x))) = (D * D)%nat) by (rewrite vscale_length; now apply concat_flat).
  split; [rewrite app_length; lia|split].
  - intros i Hi. now rewrite nth_app_l by lia.
  - intros i j Hi Hj. rewrite nth_app_r by auto.
    rewrite vscale_nth, (concat_nth D), outer_get by (auto; lia). reflexivity.
Qed.

Lemma nf_ess_value D p : length (nf_mean p) = D -> is_mat D (nf_cov p) -> length (nf_ess p) = (D + D * D)%nat /\
  (forall i, (i < D)%nat -> nth i (nf_ess p) 0 = nth i (nf_mean p) 0) /\
  (forall i j, (i < D)%nat -> (j < D)%nat ->
     nth (D + (i * D + j)) (nf_ess p) 0 = - (1/2) * (mget (nf_cov p) i j + nth i (nf_mean p) 0 * nth j (nf_mean p) 0)).
Proof.
  intros H HC. unfold nf_ess. assert (Ho := outer_is_mat D _ _ H H).
  assert (Hm : is_mat D (lmadd (nf_cov p) (outer (nf_mean p) (nf_mean p)))) by (apply map2_is_mat; auto).
  set (M := lmadd _ _) in *.
  assert (L2 : length (vscale (- (1/2)) (concat M)) = (D * D)%nat) by (rewrite vscale_length; now apply concat_flat).
  split; [rewrite app_length; lia|split].
  - intros i Hi. now rewrite nth_app_l by lia.
  - intros i j Hi Hj. rewrite nth_app_r by auto.
    rewrite vscale_nth, (concat_nth D) by auto. unfold M, lmadd. rewrite (map2_get D), outer_get by (auto; lia). reflexivity.
Qed.

Lemma nf_log_norm_value D p P L : length (nf_mean p) = D -> is_mat D (nf_cov p) ->
  is_inverse D (mget (nf_cov p)) P -> is_chol D (mget (nf_cov p)) L ->
  nf_log_norm p = Ok (1/2 * (2 * bsum D (fun i => ln (L i i)) + quad D P (vf (nf_mean p))) + 1/2 * INR D * ln (2 * PI)).
Proof.
  intros H1 H2 H3 H4. unfold nf_log_norm. rewrite (t_cholesky_ok D _ L H2 H4), (t_inverse_ok D _ P H2 H3). cbn [bindr].
  rewrite H1, logdet_bsum. do 5 f_equal.
  assert (L1 : length (lmvm (mk D P) (nf_mean p)) = D) by (rewrite lmvm_length; apply mk_length).
  rewrite (dot_dotf D) by auto. rewrite dotf_comm. apply dotf_ext; auto. intros i Hi. unfold vf at 1.
  rewrite (lmvm_nth D) by (auto using is_mat_mk). apply mvm_ext; auto using mk_meq.
Qed.

Lemma nf_forward_value D p x K : nf_ok D p -> length x = D ->
  (exists P, is_inverse D (mget (nf_cov p)) P /\ is_chol D P K) ->
  nf_forward true p (nf_suff_stats x) = Ok (gauss_logpdf D K (nf_mean p) x).
Proof.
  intros (H1 & H2 & H3) Hx (P & HI & HK). destruct (chol_complete D _ H3) as (L & _ & HL).
  unfold nf_forward. destruct (nf_nat_value D p P H1 H2 HI) as (n & -> & N1 & N2 & N3).
  rewrite (t_cholesky_ok D _ L H2 HL). cbn [bindr]. f_equal. rewrite H1, logdet_bsum.
  destruct (nf_suff_value D x Hx) as (S1 & S2 & S3).
  rewrite (dot_flat0 D) by auto.
  assert (HS := chol_msym D P K HK).
  assert (A : bsum D (fun i => nth i n 0 * nth i (nf_suff_stats x) 0) = dotf D (vf x) (mvm D P (vf (nf_mean p)))).
  { apply bsum_ext. intros i Hi. rewrite N2, S2 by auto. unfold vf at 2. ring. }
  assert (B : bsum D (fun i => bsum D (fun j => nth (D + (i * D + j)) n 0 * nth (D + (i * D + j)) (nf_suff_stats x) 0))
    = - (1/2) * quad D P (vf x)).
  { rewrite quad_bsum, <- bsum_scal. apply bsum_ext. intros i Hi. rewrite <- bsum_scal. apply bsum_ext.
    intros j Hj. rewrite N3, S3 by auto. unfold vf. ring. }
  assert (C : dot (firstn D n) (nf_mean p) = quad D P (vf (nf_mean p))).
  { rewrite (dot_dotf D) by (rewrite ?firstn_length; lia). rewrite dotf_comm. apply dotf_ext; auto.
    intros i Hi. unfold vf at 1. rewrite firstn_nth_lt by auto. auto. }
  rewrite A, B, C, gauss_logpdf_quad, (logdet_inverse D _ P L K HL HK HI).
  rewrite (quad_ext D (mmul D K (mT K)) P _ (fun i => vf x i - vf (nf_mean p) i)) by (auto; apply HK).
  rewrite quad_minus by auto. lra.
Qed.

Lemma nf_kl_value D p q P' L L' : nf_ok D p -> nf_ok D q -> is_inverse D (mget (nf_cov q)) P' ->
  is_chol D (mget (nf_cov p)) L -> is_chol D (mget (nf_cov q)) L' ->
  nf_kl p q = Ok (1/2 * quad D P' (fun i => vf (nf_mean p) i - vf (nf_mean q) i)
    + 1/2 * (tr2 D (mget (nf_cov p)) P' - INR D)
    + bsum D (fun i => ln (L' i i)) - bsum D (fun i => ln (L i i))).
Proof.
  intros (H1 & H2 & H3) (G1 & G2 & G3) HP' HL HL'. unfold nf_kl.
  destruct (posdef_inverse D _ H3) as (P & _ & HP).
  destruct (nf_nat_value D p P H1 H2 HP) as (n1 & -> & A1 & A2 & A3).
  destruct (nf_nat_value D q P' G1 G2 HP') as (n2 & -> & B1 & B2 & B3).
  rewrite (nf_log_norm_value D p P L), (nf_log_norm_value D q P' L') by auto. cbn [bindr]. f_equal.
  destruct (nf_ess_value D p H1 H2) as (E1 & E2 & E3). rewrite kl_div_dot.
  assert (Lv : length (vsub n2 n1) = (D + D * D)%nat) by (rewrite vsub_length; congruence).
  assert (SP : posdef D P) by (exact (inverse_posdef D _ P H3 HP)).
  assert (SP' : posdef D P') by (exact (inverse_posdef D _ P' G3 HP')).
  assert (Ed : forall (n : list R) (Q : fm) (m' : fv), length n = (D + D * D)%nat ->
    (forall i, (i < D)%nat -> nth i n 0 = mvm D Q m' i) ->
    (forall i j, (i < D)%nat -> (j < D)%nat -> nth (D + (i * D + j)) n 0 = Q i j) ->
    dot (nf_ess p) n = dotf D (vf (nf_mean p)) (mvm D Q m') - 1/2 * tr2 D (mget (nf_cov p)) Q - 1/2 * quad D Q (vf (nf_mean p))).
  { intros n Q m' L1 N1 N2. rewrite (dot_flat0 D) by auto.
    replace (bsum D (fun i => nth i (nf_ess p) 0 * nth i n 0)) with (dotf D (vf (nf_mean p)) (mvm D Q m'))
      by (apply bsum_ext; intros i Hi; rewrite E2, N1 by auto; reflexivity).
    replace (bsum D (fun i => bsum D (fun j => nth (D + (i * D + j)) (nf_ess p) 0 * nth (D + (i * D + j)) n 0)))
      with (- (1/2) * tr2 D (mget (nf_cov p)) Q + - (1/2) * quad D Q (vf (nf_mean p))); [lra|].
    rewrite quad_bsum. unfold tr2. rewrite <- !bsum_scal, <- bsum_plus. apply bsum_ext. intros i Hi.
    rewrite <- !bsum_scal, <- bsum_plus. apply bsum_ext. intros j Hj. rewrite E3, N2 by auto. unfold vf. ring. }
  assert (Es : dot (nf_ess p) (vsub n2 n1) = dot (nf_ess p) n2 - dot (nf_ess p) n1).
  { rewrite (dot_vsub_nth (D + D * D)) by auto. rewrite !dot_nth by congruence. rewrite E1.
    rewrite <- sumf_minus. apply sumf_ext. intros; ring. }
  rewrite Es, (Ed n2 P' (vf (nf_mean q)) B1 B2 B3), (Ed n1 P (vf (nf_mean p)) A1 A2 A3).
  rewrite (tr2_inverse D _ P) by (auto; apply SP). rewrite quad_minus by (apply SP').
  change (dotf D (vf (nf_mean p)) (mvm D P (vf (nf_mean p)))) with (quad D P (vf (nf_mean p))). lra.
Qed.

Lemma nf_kl_nonneg D p q : nf_ok D p -> nf_ok D q -> exists kl, nf_kl p q = Ok kl /\ 0 <= kl.
Proof.
  intros Op Oq. assert (Op' := Op). assert (Oq' := Oq). destruct Op' as (H1 & H2 & H3), Oq' as (G1 & G2 & G3).
  destruct (posdef_inverse D _ G3) as (P' & _ & HP').
  destruct (chol_complete D _ H3) as (L & _ & HL). destruct (chol_complete D _ G3) as (L' & _ & HL').
  eexists. split; [apply (nf_kl_value D p q P' L L'); auto|].
  assert (T := tr2_chol D _ _ P' L L' HL HL' HP'). destruct HL as (_ & DL & _), HL' as (_ & DL' & _).
  assert (Q : 0 <= quad D P' (fun i => vf (nf_mean p) i - vf (nf_mean q) i)).
  { destruct (nonzero_dec D (fun i => vf (nf_mean p) i - vf (nf_mean q) i)) as [N|N].
    - assert (SP' := inverse_posdef D _ P' G3 HP'). apply Rlt_le. apply SP'. exact N.
    - apply Req_le. symmetry. apply bsum_zero. intros i Hi. rewrite N by auto. ring. }
  assert (S : 0 <= bsum D (fun i => 1/2 * ((L i i / L' i i) ^ 2 - 1) + (ln (L' i i) - ln (L i i)))).
  { apply bsum_nonneg. intros i Hi. assert (X := DL i Hi). assert (Y := DL' i Hi).
    assert (Z := ln_le_sub1 ((L i i / L' i i) ^ 2) ltac:(apply pow_lt, Rdiv_lt_0_compat; auto)).
    replace ((L i i / L' i i) ^ 2) with ((L i i / L' i i) * (L i i / L' i i)) in * by ring.
    rewrite ln_mult, ln_div in Z by (auto; apply Rdiv_lt_0_compat; auto). lra. }
  rewrite bsum_plus, bsum_scal, !bsum_minus in S.
  replace (bsum D (fun _ => 1)) with (INR D) in S by (unfold bsum; rewrite sumf_const, seq_length; ring).
  lra.
Qed.

From Coq Require Import Reals String List Arith Bool Lia Lra.
From Verif Require Import Prelude Vec Gibbs Lgamma Dist_Model Dist_Spec Dist_Proofs NG_Proofs KL_Proofs Mat MatDet NW_Model NW_Spec LMat NW_Proofs NW_KL SB_Model Set_Model Df_Model Df_Spec.
Import ListNotations.
Local Open Scope R_scope.

Lemma full_cov_ok D cov C : denotes D cov C -> ~ dimensionless cov ->
  exists M, full_cov cov D = T2 M /\ is_matrix D M C.
Proof.
  intros H N. destruct H as [c|c|v Hv|m Hm].
  - exfalso. apply N. now exists c.
  - exists (lmscale c (eye D)). split; [reflexivity|]. split.
    + apply lmscale_is_mat, is_mat_mk.
    + intros i j Hi Hj. unfold eye. rewrite lmscale_get.
      rewrite mget_mk by auto. unfold idm. destruct (Nat.eq_dec i j) as [->|Hn]; [rewrite Nat.eqb_refl; ring|]. apply Nat.eqb_neq in Hn. rewrite Hn. ring.
  - destruct v as [|c [|c' v]].
    + exists (diagm []). split; [reflexivity|]. simpl in Hv. subst D. split; [apply is_mat_mk|].
      intros i j Hi; lia.
    + simpl in Hv. subst D. exists (lmscale c (eye 1)). split; [reflexivity|]. split.
      * apply lmscale_is_mat, is_mat_mk.
      * intros i j Hi Hj. assert (i = 0%nat) by lia. assert (j = 0%nat) by lia. subst. rewrite lmscale_get. unfold eye. rewrite mget_mk by lia. unfold idm. simpl. ring.
    + exists (diagm (c :: c' :: v)). split; [reflexivity|]. rewrite <- Hv. split; [apply is_mat_mk|].
      intros i j Hi Hj. unfold diagm. now rewrite mget_mk by auto.
  - exists m. split; [reflexivity|]. split; [exact Hm|apply meq_refl].
Qed.

Lemma t_diag_ok D M C : is_matrix D M C -> t_diag (T2 M) = Ok (map (fun i => C i i) (seq 0 D)).
Proof.
  intros ((H1 & _) & H2). unfold t_diag. rewrite H1. f_equal. apply map_ext_in. intros i Hi.
  apply in_seq in Hi. apply H2; lia.
Qed.

Lemma fold_max_ge l : forall a x, (In x (a :: l)) -> x <= fold_left Rmax l a.
Proof.
  induction l as [|b l IH]; intros a x [->|H]; simpl; try contradiction.
  - lra.
  - eapply Rle_trans; [|apply IH; now left]. apply Rmax_l.
  - destruct H as [->|H].
    + eapply Rle_trans; [|apply IH; now left]. apply Rmax_r.
    + apply IH. now right.
Qed.

Lemma fold_max_in l : forall a, In (fold_left Rmax l a) (a :: l).
Proof.
  induction l as [|b l IH]; intros a; [now left|]. cbn [fold_left].
  destruct (IH (Rmax a b)) as [E|E].
  - rewrite <- E. unfold Rmax. destruct (Rle_dec a b); [right; now left|now left].
  - right. now right.
Qed.

Lemma lmax_diag D (C : fm) : (1 <= D)%nat ->
  t_max (map (fun i => C i i) (seq 0 D)) = Ok (lmax (map (fun i => C i i) (seq 0 D))) /\
  is_max_diag D C (lmax (map (fun i => C i i) (seq 0 D))).
Proof.
  intros HD. set (l := map (fun i => C i i) (seq 0 D)).
  assert (Hl : length l = D) by (unfold l; now rewrite map_length, seq_length).
  assert (Hin : forall x, In x l <-> exists i, (i < D)%nat /\ x = C i i).
  { intros x. unfold l. rewrite in_map_iff. split.
    - intros (i & E & Hi). apply in_seq in Hi. exists i. split; [lia|auto].
    - intros (i & Hi & E). exists i. split; [auto|]. apply in_seq. lia. }
  destruct l as [|a l]; [simpl in Hl; lia|]. split; [reflexivity|]. unfold lmax. split.
  - apply Hin. apply fold_max_in.
  - intros i Hi. apply fold_max_ge. apply Hin. now exists i.
Qed.

Lemma posdef_scale n A c : 0 < c -> posdef n A -> posdef n (fun i j => c * A i j).
Proof.
  intros Hc (H1 & H2). split.
  - intros i j Hi Hj. f_equal. now apply H1.
  - intros x Hx. rewrite quad_scal. apply Rmult_lt_0_compat; auto.
Qed.

Lemma lmscale_meq D c M A : is_matrix D M A -> is_matrix D (lmscale c M) (fun i j => c * A i j).
Proof.
  intros (H1 & H2). split; [now apply lmscale_is_mat|]. intros i j Hi Hj.
  rewrite lmscale_get. now rewrite H2.
Qed.

Lemma inverse_scale n A B c : c <> 0 -> is_inverse n A B ->
  is_inverse n (fun i j => c * A i j) (fun i j => / c * B i j).
Proof.
  intros Hc (H1 & H2). split; intros i j Hi Hj; unfold mmul.
  - rewrite <- (H1 i j Hi Hj). unfold mmul. apply bsum_ext. intros k Hk. field. auto.
  - rewrite <- (H2 i j Hi Hj). unfold mmul. apply bsum_ext. intros k Hk. field. auto.
Qed.

Lemma posdef_diag_pos n A i : posdef n A -> (i < n)%nat -> 0 < A i i.
Proof.
  intros (_ & H) Hi.
  assert (K : 0 < quad n A (fun k => if Nat.eqb k i then 1 else 0)).
  { apply H. exists i. split; auto. rewrite Nat.eqb_refl. lra. }
  rewrite quad_bsum in K.
  rewrite (bsum_ext n _ (fun k => if Nat.eqb k i then A k i else 0)) in K.
  - rewrite (bsum_single n _ i) in K; auto.
    + now rewrite Nat.eqb_refl in K.
    + intros k Hk Hn. apply Nat.eqb_neq in Hn. now rewrite Hn.
  - intros k Hk. destruct (Nat.eqb k i) eqn:E.
    + rewrite (bsum_single n _ i); auto.
      * rewrite Nat.eqb_refl. ring.
      * intros j Hj Hn. apply Nat.eqb_neq in Hn. rewrite Hn. ring.
    + apply bsum_zero. intros; ring.
Qed.

(** ** The three kinds of parameters *)
Lemma default_full_ok D mean cov C s : (1 <= D)%nat -> length mean = D -> denotes D cov C ->
  ~ dimensionless cov -> posdef D C -> 0 < s ->
  exists W, default_full mean cov s =
    Ok (Pfull {| bp_prior := {| nw_mean := mean; nw_scale := s; nw_W := W; nw_dof := s + INR D - 1 |};
                 bp_post := {| nw_mean := mean; nw_scale := s; nw_W := W; nw_dof := s + INR D - 1 |} |}) /\
  is_mat D W /\ posdef D (mget W) /\
  is_inverse D C (fun i j => (s + INR D - 1) * mget W i j) /\
  is_inverse D (mget W) (fun i j => (s + INR D - 1) * C i j).
Proof.
  intros HD Hm Hd Hn HC Hs. destruct (full_cov_ok D cov C Hd Hn) as (M & E & HM & HMC).
  assert (HI : 1 <= INR D) by (change 1 with (INR 1); now apply le_INR).
  assert (Hdof : 0 < s + INR D - 1) by lra.
  destruct (posdef_inverse D C HC) as (B & _ & HB).
  assert (HB' : is_inverse D (mget M) B) by (eapply is_inverse_ext; [apply meq_sym, HMC|apply meq_refl|exact HB]).
  assert (PB : posdef D B) by (eapply inverse_posdef; [exact HC|exact HB]).
  unfold default_full. rewrite Hm, E. cbn [t_inv].
  rewrite (t_inverse_ok D M B HM HB'). cbn [bindr].
  set (c := / (s + INR D - 1)). assert (Hc : 0 < c) by now apply Rinv_0_lt_compat.
  assert (HW : meq D (mget (lmscale c (mk D B))) (fun i j => c * B i j)).
  { intros i j Hi Hj. rewrite lmscale_get. now rewrite mget_mk by auto. }
  assert (Hcc : forall x, (s + INR D - 1) * (c * x) = x) by (intros x; unfold c; field; lra).
  exists (lmscale c (mk D B)). split; [reflexivity|]. split; [apply lmscale_is_mat, is_mat_mk|].
  split; [|split].
  - eapply posdef_ext; [apply meq_sym, HW|]. now apply posdef_scale.
  - eapply is_inverse_ext; [apply meq_refl| |exact HB]. intros i j Hi Hj. rewrite HW by auto. now rewrite Hcc.
  - apply is_inverse_sym in HB. apply (inverse_scale D _ _ c) in HB; [|lra].
    eapply is_inverse_ext; [apply meq_sym, HW| |exact HB]. intros i j Hi Hj. unfold c. rewrite Rinv_inv. reflexivity.
Qed.

Lemma default_diag_ok D mean cov C s : length mean = D -> denotes D cov C -> ~ dimensionless cov ->
  default_diag mean cov s =
    let p := {| ng_mean := mean; ng_scale := s; ng_shape := s;
                ng_rates := map (fun i => s * C i i) (seq 0 D) |} in
    Ok (Pdiag {| bp_prior := p; bp_post := p |}).
Proof.
  intros Hm Hd Hn. destruct (full_cov_ok D cov C Hd Hn) as (M & E & HM).
  unfold default_diag. rewrite Hm, E, (t_diag_ok D M C HM). cbn [bindr]. now rewrite map_map.
Qed.

Lemma default_iso_ok D mean cov C s : (1 <= D)%nat -> length mean = D -> denotes D cov C -> ~ dimensionless cov ->
  exists v, is_max_diag D C v /\ default_iso mean cov s =
    let p := {| ig_mean := mean; ig_scale := s; ig_shape := s; ig_rate := s * v |} in
    Ok (Piso {| bp_prior := p; bp_post := p |}).
Proof.
  intros HD Hm Hd Hn. destruct (full_cov_ok D cov C Hd Hn) as (M & E & HM).
  destruct (lmax_diag D C HD) as (E' & HV). eexists. split; [exact HV|].
  unfold default_iso. rewrite Hm, E, (t_diag_ok D M C HM). cbn [bindr]. rewrite E'. reflexivity.
Qed.

Lemma scalar_eye D c : is_matrix D (lmscale c (eye D)) (fun i j => if Nat.eqb i j then c else 0).
Proof.
  split; [apply lmscale_is_mat, is_mat_mk|]. intros i j Hi Hj. rewrite lmscale_get. unfold eye.
  rewrite mget_mk by auto. unfold idm. destruct (Nat.eq_dec i j) as [->|Hn]; [rewrite Nat.eqb_refl; ring|].
  apply Nat.eqb_neq in Hn. rewrite Hn. ring.
Qed.

Lemma ng_default_ok D (mean : list R) (C : fm) s : length mean = D -> 0 < s -> (forall i, (i < D)%nat -> 0 < C i i) ->
  ng_ok D {| ng_mean := mean; ng_scale := s; ng_shape := s; ng_rates := map (fun i => s * C i i) (seq 0 D) |}.
Proof.
  intros H1 H2 H3. unfold ng_ok. cbn. rewrite map_length, seq_length. split; [auto|]. split; [auto|].
  split; [auto|]. split; [auto|]. apply Forall_forall. intros x Hx. apply in_map_iff in Hx.
  destruct Hx as (i & <- & Hi). apply in_seq in Hi. apply Rmult_lt_0_compat; auto. apply H3. lia.
Qed.

Lemma diag_cov_ok D (mean : list R) (C : fm) s : length mean = D -> 0 < s -> (forall i, (i < D)%nat -> 0 < C i i) ->
  let p := {| ng_mean := mean; ng_scale := s; ng_shape := s; ng_rates := map (fun i => s * C i i) (seq 0 D) |} in
  forall q, exists M, normal_cov (Pdiag {| bp_prior := q; bp_post := p |}) = Ok M /\
    is_matrix D M (fun i j => if Nat.eqb i j then C i i else 0).
Proof.
  intros Hm Hs HC p q. unfold normal_cov, normal_mean, np_value. cbn [bp_post fst snd ng_mean_precision ng_mean p].
  unfold ng_mean_precision. cbn [fst snd ng_mean ng_shape ng_rates p]. rewrite map_map, Hm.
  destruct D as [|[|D]].
  - exists []. split; [reflexivity|]. split; [now split|]. intros i j Hi; lia.
  - cbn [seq map]. eexists. split; [reflexivity|].
    destruct (scalar_eye 1 (1 / (s / (s * C 0%nat 0%nat)))) as (H1 & H2). split; [exact H1|].
    intros i j Hi Hj. rewrite H2 by auto. assert (i = 0%nat) by lia. assert (j = 0%nat) by lia. subst i j.
    cbn. assert (0 < C 0%nat 0%nat) by (apply HC; lia). field. lra.
  - cbn [seq map]. eexists. split; [reflexivity|].
    set (g := fun i => s / (s * C i i)).
    assert (L : map (fun x => 1 / x) (g 0%nat :: g 1%nat :: map g (seq 2 D)) = map (fun i => 1 / g i) (seq 0 (S (S D)))).
    { cbn [seq map]. now rewrite map_map. }
    change (is_matrix (S (S D)) (diagm (map (fun x => 1 / x) (g 0%nat :: g 1%nat :: map g (seq 2 D)))) (fun i j => if Nat.eqb i j then C i i else 0)).
    rewrite L. unfold diagm. rewrite map_length, seq_length. split; [apply is_mat_mk|].
    intros i j Hi Hj. rewrite mget_mk by auto. destruct (Nat.eqb i j) eqn:Eij; [|reflexivity].
    rewrite LMat.map_seq_nth by auto. unfold g. assert (0 < C i i) by now apply HC. field. lra.
Qed.

(** ** Divergence of a posterior moved away from its prior *)
Lemma gk_self a b : b <> 0 -> gk a b a b = 0.
Proof. intros H. unfold gk. field. auto. Qed.

Lemma ng_kl_moved d p m : ng_ok d p -> length m = d ->
  ng_kl {| ng_mean := m; ng_scale := ng_scale p; ng_shape := ng_shape p; ng_rates := ng_rates p |} p =
  1/2 * ng_scale p * bsum d (fun i => ng_shape p / nth i (ng_rates p) 0 * (nth i m 0 - nth i (ng_mean p) 0) ^ 2).
Proof.
  intros Hp Hm. rewrite (ng_kl_sum d).
  2:{ destruct Hp as (P1 & P2 & P3 & P4 & P5). unfold ng_ok. cbn. auto. }
  2: exact Hp.
  rewrite <- bsum_scal. apply bsum_ext. intros i Hi. unfold ng_kl_term. cbn [ng_mean ng_scale ng_shape ng_rates].
  destruct Hp as (P1 & P2 & P3 & P4 & P5).
  assert (0 < nth i (ng_rates p) 0) by (apply Forall_pos_nth; auto; lia).
  rewrite gk_self by lra. field. lra.
Qed.

Lemma ig_kl_moved d p m : ig_ok d p -> length m = d ->
  ig_kl {| ig_mean := m; ig_scale := ig_scale p; ig_shape := ig_shape p; ig_rate := ig_rate p |} p =
  1/2 * ig_scale p * (ig_shape p / ig_rate p * bsum d (fun i => (nth i m 0 - nth i (ig_mean p) 0) ^ 2)).
Proof.
  intros Hp Hm. rewrite (ig_kl_sum d).
  2:{ destruct Hp as (P1 & P2 & P3 & P4). unfold ig_ok. cbn. auto. }
  2: exact Hp.
  destruct Hp as (P1 & P2 & P3 & P4). cbn [ig_mean ig_scale ig_shape ig_rate].
  rewrite gk_self by lra. unfold bsum. field. lra.
Qed.

Lemma nw_kl_moved D p m : nw_ok D p -> length m = D ->
  nw_kl {| nw_mean := m; nw_scale := nw_scale p; nw_W := nw_W p; nw_dof := nw_dof p |} p =
  Ok (1/2 * nw_scale p * quad D (fun i j => nw_dof p * mget (nw_W p) i j)
                              (fun i => nth i m 0 - nth i (nw_mean p) 0)).
Proof.
  intros Hp Hm. assert (Hp' := Hp). destruct Hp' as (P1 & P2 & P3 & P4 & P5).
  destruct (posdef_inverse D _ P3) as (P & _ & HP).
  destruct (chol_complete D _ P3) as (L & EL & HL).
  rewrite (nw_kl_is D _ p P L L); auto; [|unfold nw_ok; cbn; auto].
  unfold nw_kl_value. cbn [nw_mean nw_scale nw_W nw_dof]. f_equal.
  rewrite tr2_inverse; [|apply (inverse_msym D (mget (nw_W p))); [apply P3|auto]|auto].
  rewrite bsum_zero by (intros; ring). rewrite quad_scal. unfold vf. field. lra.
Qed.

(** ** Components of a set *)
Lemma set_default_ok mk_one D mean cov C noise s sd p : length mean = D -> denotes D cov C -> ~ dimensionless cov ->
  mk_one mean cov s = Ok p ->
  set_default mk_one mean cov noise s sd =
  Ok (map (fun eps => with_mean p (noisy_mean sd (map (fun i => C i i) (seq 0 D)) mean eps)) noise).
Proof.
  intros Hm Hd Hn E. destruct (full_cov_ok D cov C Hd Hn) as (M & EM & HM).
  unfold set_default. rewrite Hm, EM, (t_diag_ok D M C HM). cbn [bindr]. rewrite E. cbn [bindr].
  induction noise as [|e noise IH]; [reflexivity|]. cbn [mapM map]. cbn [bindr]. rewrite IH. reflexivity.
Qed.

Lemma noisy_mean_length D sd (C : fm) mean eps : length mean = D -> length eps = D ->
  length (noisy_mean sd (map (fun i => C i i) (seq 0 D)) mean eps) = D.
Proof.
  intros H1 H2. unfold noisy_mean. rewrite vadd_length; auto. rewrite map2_length, map_length, seq_length. lia.
Qed.

Lemma noisy_mean_nth D sd (C : fm) mean eps i : length mean = D -> length eps = D -> (i < D)%nat ->
  nth i (noisy_mean sd (map (fun i => C i i) (seq 0 D)) mean eps) 0 =
  nth i mean 0 + sd * sqrt (C i i) * nth i eps 0.
Proof.
  intros H1 H2 Hi. unfold noisy_mean. rewrite vadd_nth.
  - rewrite (map2_nth_R _ _ _ i) by (rewrite ?map_length, ?seq_length; lia).
    rewrite LMat.map_seq_nth by auto. ring.
  - lia.
  - rewrite map2_length, map_length, seq_length. lia.
Qed.

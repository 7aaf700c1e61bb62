(** Proofs for C192: what one natural gradient step gains on the bound. *)
From Coq Require Import Reals List Arith Bool Lia Lra.
From Verif Require Import Prelude Vec Lgamma FB_Model FB_Spec FB_Proofs Edit_Model Dec_Model Set_Model Set_Spec Set_Proofs
  HMM_Model HMM_Spec HMM_Proofs HMM_Props Dist_Model Dist_Spec Dist_Proofs NG_Proofs KL_Proofs Dist_Props Mat NW_Model NW_Spec NW_Proofs NW_KL NW_Props
  LMat NW_Llh Vt_Model Vt_Spec Vt_Proofs Vt_Props Gn_Spec.
Import ListNotations.
Local Open Scope R_scope.

(** ** One component *)
Section Gain.
  Context {P : Type} (nat_of ess : P -> list R) (log_norm : P -> R) (from_nat : list R -> P).
  Variables (ok : P -> Prop) (N : nat).
  Let kl (p q : P) : R := kl_div (nat_of p) (ess p) (nat_of q) (log_norm p) (log_norm q).
  Hypothesis Hn : forall p, ok p -> length (nat_of p) = N.
  Hypothesis He : forall p, ok p -> length (ess p) = N.
  Hypothesis Hkl : forall p q, ok p -> ok q -> 0 <= kl p q.
  Hypothesis Hmix_ok : forall l p q, ok p -> ok q -> 0 <= l <= 1 ->
    ok (from_nat (vadd (nat_of p) (vscale l (vsub (nat_of q) (nat_of p))))).
  Hypothesis Hmix_nat : forall l p q, ok p -> ok q -> 0 <= l <= 1 ->
    nat_of (from_nat (vadd (nat_of p) (vscale l (vsub (nat_of q) (nat_of p))))) =
    vadd (nat_of p) (vscale l (vsub (nat_of q) (nat_of p))).

  Variables (prior post full : P) (stats : list R) (lrate : R).
  Hypotheses (O1 : ok prior) (O2 : ok post) (O3 : ok full) (Hs : length stats = N)
             (Hf : nat_of full = vadd (nat_of prior) stats) (Hl : 0 <= lrate <= 1).

  Let dd (p q : P) : R := sumf (fun k => nth k (ess p) 0 * nth k (nat_of q) 0) (seq 0 N).

  (** The learning rate times the gain is the divergence of the old posterior
      from the new one, plus a fraction of the divergence the other way. *)
  Lemma gain_exact : let q := std_update nat_of from_nat lrate prior post stats in
    lrate * (elbo_of nat_of ess log_norm prior stats q - elbo_of nat_of ess log_norm prior stats post) =
    kl post q + (1 - lrate) * kl q post.
  Proof.
    cbv zeta. replace (std_update nat_of from_nat lrate prior post stats) with
      (from_nat (vadd (nat_of post) (vscale lrate (vsub (nat_of full) (nat_of post))))) by (unfold std_update; now rewrite Hf).
    set (q := from_nat _). assert (Oq : ok q) by (apply Hmix_ok; auto).
    assert (KF : forall a b, ok a -> ok b -> kl a b = log_norm b - log_norm a - (dd a b - dd a a))
      by (apply (bound_kl_form nat_of ess log_norm ok N Hn He)).
    assert (EF : forall p, ok p -> elbo_of nat_of ess log_norm prior stats p = log_norm full - log_norm prior - kl p full).
    { intros p Hp. apply (bound_elbo_form nat_of ess log_norm ok N Hn He prior full stats O1 O3 Hs Hf p Hp). }
    rewrite !EF, !KF by auto.
    assert (En : forall k, (k < N)%nat -> nth k (nat_of q) 0 =
      (1 - lrate) * nth k (nat_of post) 0 + lrate * nth k (nat_of full) 0).
    { intros k Hk. unfold q. rewrite Hmix_nat by auto. apply vlin_nth; rewrite !Hn by auto; auto. }
    assert (D1 : dd post q = (1 - lrate) * dd post post + lrate * dd post full).
    { unfold dd. rewrite <- !sumf_scal_l, <- sumf_plus. apply sumf_ext.
      intros k Hk. apply in_seq in Hk. rewrite En by lia. ring. }
    assert (D2 : dd q q = (1 - lrate) * dd q post + lrate * dd q full).
    { unfold dd. rewrite <- !sumf_scal_l, <- sumf_plus. apply sumf_ext.
      intros k Hk. apply in_seq in Hk. rewrite En by lia. ring. }
    rewrite D1, D2. ring.
  Qed.

  Lemma gain_moved : let q := std_update nat_of from_nat lrate prior post stats in
    kl post q <= lrate * (elbo_of nat_of ess log_norm prior stats q - elbo_of nat_of ess log_norm prior stats post).
  Proof.
    cbv zeta. rewrite gain_exact.
    assert (E : std_update nat_of from_nat lrate prior post stats =
      from_nat (vadd (nat_of post) (vscale lrate (vsub (nat_of full) (nat_of post))))) by (unfold std_update; now rewrite Hf).
    rewrite E. assert (H := Hkl _ post (Hmix_ok lrate post full O2 O3 Hl) O2).
    assert (0 <= (1 - lrate) * kl (from_nat (vadd (nat_of post) (vscale lrate (vsub (nat_of full) (nat_of post))))) post)
      by (apply Rmult_le_pos; lra). lra.
  Qed.
End Gain.

Lemma gain_ng : forall d prior post data lrate,
  ng_ok d prior -> ng_ok d post -> frames_of_dim d data -> nonneg_weights data -> 0 <= lrate <= 1 ->
  let stats := wstats (2 * d + 2) nd_suff_stats data in
  let bound := elbo_of ng_nat ng_ess ng_log_norm prior stats in
  let upd l := std_update ng_nat ng_from_nat l prior post stats in
  ng_kl post (upd lrate) <= lrate * (bound (upd lrate) - bound post).
Proof.
  intros d prior post data lrate Hp Hq Hx Hw Hl stats bound upd.
  assert (N0 := Nw_nonneg data Hw).
  assert (Hp' := Hp). destruct Hp' as (P1 & P2 & P3 & P4 & P5).
  assert (Hq' := Hq). destruct Hq' as (Q1 & Q2 & Q3 & Q4 & Q5).
  assert (Ls : length stats = (2 * d + 2)%nat) by (apply wstats_length; eapply ng_stats_len; eauto).
  set (full := ng_from_nat (vadd (ng_nat prior) stats)).
  assert (Efull : upd 1 = full) by (apply ng_full_is; auto).
  assert (Ofull : ng_ok d full) by (rewrite <- Efull; apply ng_full_ok; auto).
  assert (Hn : forall p, ng_ok d p -> length (ng_nat p) = (2 * d + 2)%nat)
    by (intros p (A & B & _); apply ng_nat_length; auto).
  assert (He : forall p, ng_ok d p -> length (ng_ess p) = (2 * d + 2)%nat)
    by (intros p (A & B & _); rewrite (ng_ess_length d); auto; lia).
  assert (Hf : ng_nat full = vadd (ng_nat prior) stats).
  { apply (ng_roundtrip' d); [rewrite vadd_length; rewrite Hn; auto|].
    assert (E := ng_upd_3 d 1 prior prior data P1 P2 P1 P2 Hx). fold stats in E.
    rewrite (gen_upd_nth ng_nat (2 * d + 2)) in E by (auto; lia).
    rewrite vadd_nth by (rewrite ?Hn; auto; lia). lra. }
  assert (Hkl : forall p q, ng_ok d p -> ng_ok d q ->
    0 <= kl_div (ng_nat p) (ng_ess p) (ng_nat q) (ng_log_norm p) (ng_log_norm q)) by (exact (ng_kl_nonneg d)).
  assert (Hm : forall l p q, ng_ok d p -> ng_ok d q -> 0 <= l <= 1 ->
    ng_nat (ng_from_nat (vadd (ng_nat p) (vscale l (vsub (ng_nat q) (ng_nat p))))) =
    vadd (ng_nat p) (vscale l (vsub (ng_nat q) (ng_nat p)))).
  { intros l p q Op Oq Hll. apply (ng_roundtrip' d); [rewrite vlin_length; rewrite !Hn; auto|].
    rewrite vlin_nth by (rewrite !Hn; auto; lia).
    destruct Op as (A1 & A2 & A3 & A4 & A5), Oq as (B1 & B2 & B3 & B4 & B5).
    assert (T := ng_nat_3 d p 0 A1 A2). assert (U := ng_nat_3 d q 0 B1 B2).
    rewrite Nat.add_0_r in T, U. rewrite T, U. cbn [nth].
    assert (X := convex_pos l _ _ Hll A3 B3). lra. }
  apply (gain_moved ng_nat ng_ess ng_log_norm ng_from_nat (ng_ok d) (2 * d + 2) Hn He Hkl)
      with (full := full); auto.
  - intros; apply ng_mix_ok; auto.
Qed.

Lemma gain_ig : forall d prior post data lrate,
  ig_ok d prior -> ig_ok d post -> frames_of_dim d data -> nonneg_weights data -> 0 <= lrate <= 1 ->
  let stats := wstats (d + 3) in_suff_stats data in
  let bound := elbo_of ig_nat ig_ess ig_log_norm prior stats in
  let upd l := std_update ig_nat ig_from_nat l prior post stats in
  ig_kl post (upd lrate) <= lrate * (bound (upd lrate) - bound post).
Proof.
  intros d prior post data lrate Hp Hq Hx Hw Hl stats bound upd.
  assert (N0 := Nw_nonneg data Hw).
  assert (Hp' := Hp). destruct Hp' as (P1 & P3 & P4 & P5).
  assert (Hq' := Hq). destruct Hq' as (Q1 & Q3 & Q4 & Q5).
  assert (Ls : length stats = (d + 3)%nat) by (apply ig_stats_length; auto).
  assert (Hn : forall p, ig_ok d p -> length (ig_nat p) = (d + 3)%nat)
    by (intros p (A & _); rewrite ig_nat_length, A; auto).
  assert (He : forall p, ig_ok d p -> length (ig_ess p) = (d + 3)%nat)
    by (intros p (A & _); rewrite ig_ess_length, A; auto).
  set (full := ig_from_nat (vadd (ig_nat prior) stats)).
  assert (Efull : upd 1 = full) by (apply (gen_full ig_nat ig_from_nat (d + 3)); auto).
  assert (Ofull : ig_ok d full) by (rewrite <- Efull; apply ig_full_ok; auto).
  assert (Hf : ig_nat full = vadd (ig_nat prior) stats) by (apply ig_full_nat; auto; lra).
  assert (Hkl : forall p q, ig_ok d p -> ig_ok d q ->
    0 <= kl_div (ig_nat p) (ig_ess p) (ig_nat q) (ig_log_norm p) (ig_log_norm q)) by (exact (ig_kl_nonneg d)).
  assert (Hm : forall l p q, ig_ok d p -> ig_ok d q -> 0 <= l <= 1 ->
    ig_nat (ig_from_nat (vadd (ig_nat p) (vscale l (vsub (ig_nat q) (ig_nat p))))) =
    vadd (ig_nat p) (vscale l (vsub (ig_nat q) (ig_nat p)))).
  { intros l p q Op Oq Hll. apply (ig_roundtrip' d); [rewrite vlin_length; rewrite !Hn; auto|].
    rewrite vlin_nth by (rewrite !Hn; auto; lia).
    destruct Op as (A1 & A3 & A4 & A5), Oq as (B1 & B3 & B4 & B5).
    rewrite !(ig_nat_2 d) by auto. cbn [nth].
    assert (X := convex_pos l _ _ Hll A3 B3). lra. }
  apply (gain_moved ig_nat ig_ess ig_log_norm ig_from_nat (ig_ok d) (d + 3) Hn He Hkl)
      with (full := full); auto.
  - intros; apply ig_mix_ok; auto.
Qed.

Lemma gain_dir : forall d prior post data lrate,
  dir_ok d prior -> dir_ok d post -> frames_of_dim d data -> nonneg_weights data ->
  Forall (fun gx => Forall (fun v => 0 <= v) (snd gx)) data -> 0 <= lrate <= 1 ->
  let stats := wstats d cat_suff_stats data in
  let bound := elbo_of dir_nat dir_ess dir_log_norm prior stats in
  let upd l := std_update dir_nat dir_from_nat l prior post stats in
  dir_kl post (upd lrate) <= lrate * (bound (upd lrate) - bound post).
Proof.
  intros d prior post data lrate Hp Hq Hx Hw Hv Hl stats bound upd.
  assert (Hd : (0 < d)%nat) by apply Hp.
  assert (Hne : forall p, dir_ok d p -> p <> [])
    by (intros p (A & _); destruct p; simpl in *; [lia|congruence]).
  assert (Hn : forall p, dir_ok d p -> length (dir_nat p) = d)
    by (intros p Op; rewrite dir_nat_length by auto; apply Op).
  assert (He : forall p, dir_ok d p -> length (dir_ess p) = d)
    by (intros p Op; rewrite dir_ess_length by auto; apply Op).
  assert (Hl' : forall gx, In gx data -> length (cat_suff_stats (snd gx)) = d).
  { intros gx Hin. unfold frames_of_dim in Hx. rewrite Forall_forall in Hx. assert (E := Hx gx Hin).
    rewrite cat_suff_stats_length; [auto|]. destruct (snd gx); simpl in *; [lia|congruence]. }
  assert (Ls : length stats = d) by (apply wstats_length; auto).
  set (full := dir_from_nat (vadd (dir_nat prior) stats)).
  assert (Efull : upd 1 = full) by (apply (gen_full dir_nat dir_from_nat d); auto).
  assert (Lsum : length (vadd (dir_nat prior) stats) = d) by (rewrite vadd_length; rewrite Hn; auto).
  assert (Ofull : dir_ok d full).
  { rewrite <- Efull. apply (C33_positive_forever d prior); auto.
    apply reach_step; [apply reach_init; auto|lra|repeat apply conj; auto]. }
  assert (Hf : dir_nat full = vadd (dir_nat prior) stats).
  { apply dir_nat_dir_from_nat. intros E. rewrite E in Lsum. simpl in Lsum. lia. }
  assert (Hkl : forall p q, dir_ok d p -> dir_ok d q ->
    0 <= kl_div (dir_nat p) (dir_ess p) (dir_nat q) (dir_log_norm p) (dir_log_norm q)) by (exact (dir_kl_nonneg d)).
  apply (gain_moved dir_nat dir_ess dir_log_norm dir_from_nat (dir_ok d) d Hn He Hkl)
      with (full := full); auto.
  - intros l p q Op Oq Hll. destruct (dir_mix_spec d l p q Op Oq) as [A B].
      repeat apply conj; auto. apply Forall_pos_of_nth. intros k Hk. rewrite A in Hk. rewrite B by auto.
      destruct Op as (P1 & P2 & P3), Oq as (Q1 & Q2 & Q3).
      apply convex_pos; auto; apply Forall_pos_nth; auto; lia.
  - intros l p q Op Oq Hll. apply dir_nat_dir_from_nat. intros E.
      assert (X : length (vadd (dir_nat p) (vscale l (vsub (dir_nat q) (dir_nat p)))) = d)
        by (rewrite vlin_length; rewrite !Hn; auto).
      rewrite E in X. simpl in X. lia.
Qed.

Lemma gain_nw : forall D prior post data lrate,
  nw_ok D prior -> nw_ok D post -> frames_of_dim D data -> nonneg_weights data -> 0 <= lrate <= 1 ->
  let stats := wstats (D + (D * D + 2)) nl_suff_stats data in
  exists q b b' m,
    nw_update lrate prior post stats = Ok q /\ nw_elbo prior stats post = Ok b /\ nw_elbo prior stats q = Ok b' /\
    nw_kl post q = Ok m /\ m <= lrate * (b' - b).
Proof.
  intros D prior post data lrate Op Oq Hx Hw Hl stats.
  destruct (nw_full D prior data Op Hx Hw) as (full & np & E & F1 & F2 & F3 & F4 & _).
  fold stats in F1, F3.
  assert (Ef := nw_update_full D prior post data Op Oq Hx np E). fold stats in Ef. rewrite F1 in Ef.
  set (nat_of := fun p => getl [] (nw_nat p)). set (ess := fun p => getl [] (nw_ess p)).
  set (lnorm := fun p => getl 0 (nw_log_norm p)). set (fromn := fun n => getl prior (nw_from_nat n)).
  assert (Kn : forall p, nw_ok D p -> nw_nat p = Ok (nat_of p) /\ length (nat_of p) = (D + (D * D + 2))%nat).
  { intros p O. destruct (nw_ok_npar D p O) as (n & P & En & _ & _ & Hn). unfold nat_of. rewrite En. simpl.
    split; auto. apply Hn. }
  assert (Ke : forall p, nw_ok D p -> nw_ess p = Ok (ess p) /\ length (ess p) = (D + (D * D + 2))%nat /\
                nw_log_norm p = Ok (lnorm p)).
  { intros p (O1 & O2 & O3 & O4 & O5). destruct (chol_complete D _ O3) as (L & _ & HL).
    destruct (nw_ess_epar D p L O1 O2 HL) as (e & Ee & He). unfold ess, lnorm.
    rewrite Ee, (nw_log_norm_value D p L) by auto. simpl. split; [auto|]. split; [apply He|auto]. }
  assert (Kk : forall p q, nw_ok D p -> nw_ok D q ->
    nw_kl p q = Ok (kl_div (nat_of p) (ess p) (nat_of q) (lnorm p) (lnorm q))).
  { intros p q O1 O2. unfold nw_kl. destruct (Kn p O1) as (-> & _), (Kn q O2) as (-> & _).
    destruct (Ke p O1) as (-> & _ & ->), (Ke q O2) as (_ & _ & ->). reflexivity. }
  assert (Kb : forall p, nw_ok D p -> nw_elbo prior stats p = Ok (elbo_of nat_of ess lnorm prior stats p)).
  { intros p O. unfold nw_elbo. destruct (Ke p O) as (-> & _). rewrite Kk by auto. reflexivity. }
  assert (Hn : forall p, nw_ok D p -> length (nat_of p) = (D + (D * D + 2))%nat) by (intros; now apply Kn).
  assert (He : forall p, nw_ok D p -> length (ess p) = (D + (D * D + 2))%nat) by (intros; now apply Ke).
  assert (Hkl : forall p q, nw_ok D p -> nw_ok D q -> 0 <= kl_div (nat_of p) (ess p) (nat_of q) (lnorm p) (lnorm q)).
  { intros p q O1 O2. destruct (nw_kl_nonneg D p q O1 O2) as (kl & E1 & E2). rewrite Kk in E1 by auto. congruence. }
  assert (Hm : forall l p q, nw_ok D p -> nw_ok D q -> 0 <= l <= 1 ->
    nw_from_nat (vadd (nat_of p) (vscale l (vsub (nat_of q) (nat_of p)))) =
      Ok (fromn (vadd (nat_of p) (vscale l (vsub (nat_of q) (nat_of p))))) /\
    nw_ok D (fromn (vadd (nat_of p) (vscale l (vsub (nat_of q) (nat_of p))))) /\
    nat_of (fromn (vadd (nat_of p) (vscale l (vsub (nat_of q) (nat_of p))))) =
      vadd (nat_of p) (vscale l (vsub (nat_of q) (nat_of p)))).
  { intros l p q O1 O2 Hll. destruct (nw_mix D l p q _ _ O1 O2 Hll (proj1 (Kn p O1)) (proj1 (Kn q O2))) as (r & R1 & R2 & R3).
    unfold fromn. rewrite R1. simpl. split; auto. split; auto. unfold nat_of at 1. rewrite R3. reflexivity. }
  assert (Hrt : forall p, nw_ok D p -> fromn (nat_of p) = p).
  { intros p O. unfold fromn. assert (O' := O). destruct O' as (O1 & O2 & _ & O4 & _).
    rewrite (nw_roundtrip D p (nat_of p)); auto; [lra|now apply Kn]. }
  assert (Hf : nat_of full = vadd (nat_of prior) stats).
  { unfold nat_of. rewrite F3, E. reflexivity. }
  assert (Ls : length stats = (D + (D * D + 2))%nat) by (apply (nl_wstats D data Hx)).
  set (q := std_update nat_of fromn lrate prior post stats).
  assert (Eq : q = fromn (vadd (nat_of post) (vscale lrate (vsub (nat_of full) (nat_of post))))).
  { unfold q, std_update. now rewrite Hf. }
  destruct (Hm lrate post full Oq F2 Hl) as (M1 & M2 & M3). rewrite <- Eq in M1, M2, M3.
  exists q, (elbo_of nat_of ess lnorm prior stats post), (elbo_of nat_of ess lnorm prior stats q),
    (kl_div (nat_of post) (ess post) (nat_of q) (lnorm post) (lnorm q)).
  split.
  { unfold nw_update. destruct (Kn prior Op) as (-> & _), (Kn post Oq) as (-> & _). cbn [bindr].
    rewrite <- Hf. exact M1. }
  split; [now apply Kb|]. split; [now apply Kb|]. split; [now apply Kk|].
  apply (gain_moved nat_of ess lnorm fromn (nw_ok D) (D + (D * D + 2)) Hn He Hkl) with (full := full); auto.
  - intros; now apply Hm.
  - intros; now apply Hm.
Qed.

Lemma moved_self k D c : leaf_cell k D c \/ (exists n, weights_cell n c) -> moved c c = 0.
Proof.
  intros [W|(n & W)].
  - destruct k, c as [p q|p q|p q|p q]; simpl in W; try tauto; destruct W as [Wp Wq]; cbn [moved].
    + apply (C40_normal_gamma D q q); auto.
    + apply (C40_isotropic_normal_gamma D q q); auto.
    + now rewrite (nw_kl_self D).
    + apply (C40_dirichlet D q q); auto.
  - destruct c; simpl in W; try tauto. destruct W. cbn [moved]. apply (C40_dirichlet n post post); auto.
Qed.

Lemma moved_nonneg k D c c' : leaf_cell k D c /\ leaf_cell k D c' \/ (exists n, weights_cell n c /\ weights_cell n c') -> 0 <= moved c c'.
Proof.
  intros [[W W']|(n & W & W')].
  - destruct k, c as [p q|p q|p q|p q], c' as [p' q'|p' q'|p' q'|p' q']; simpl in W, W'; try tauto; destruct W as [Wp Wq], W' as [Wp' Wq']; cbn [moved].
    + now apply (ng_kl_nonneg D).
    + now apply (ig_kl_nonneg D).
    + destruct (nw_kl_nonneg D q q' Wq Wq') as (x & -> & Hx). exact Hx.
    + now apply (dir_kl_nonneg D).
  - destruct c, c'; simpl in W, W'; try tauto. destruct W, W'. now apply (dir_kl_nonneg n).
Qed.

Lemma weights_gain n D lrate c data : weights_cell n c -> 0 <= lrate <= 1 ->
  Forall (fun gx => 0 <= fst gx /\ fits D c (snd gx)) data ->
  let stats := wstats (length (cell_form c)) (cell_fn c) data in
  let c' := cell_update lrate stats c in
  moved c c' <= lrate * (dot stats (cell_form c') - cell_kl c' - (dot stats (cell_form c) - cell_kl c)).
Proof.
  intros W Hl Hd stats c'. assert (Lf := weights_form_length n c W).
  destruct (fits_dim D c data Hd) as (Hw & Hx). destruct c as [| | |p q]; simpl in W; try tauto.
  destruct W as [Wp Wq]. destruct Hx as [Hx Hv]. rewrite (proj1 Wp) in Hx. unfold c', stats. rewrite Lf.
  apply (gain_dir n p q data lrate); auto.
Qed.

Lemma leaf_gain k D lrate c data : leaf_cell k D c -> 0 <= lrate <= 1 ->
  Forall (fun gx => 0 <= fst gx /\ fits D c (snd gx)) data ->
  let stats := wstats (length (cell_form c)) (cell_fn c) data in
  let c' := cell_update lrate stats c in
  moved c c' <= lrate * (dot stats (cell_form c') - cell_kl c' - (dot stats (cell_form c) - cell_kl c)).
Proof.
  intros W Hl Hd stats c'. assert (Lf := leaf_form_length k D c W).
  destruct (fits_dim D c data Hd) as (Hw & Hx). unfold c', stats. rewrite Lf.
  destruct k, c as [p q|p q|p q|p q]; simpl in W; try tauto; destruct W as [Wp Wq]; cbn [suff_dim cell_fn cell_update].
  - apply (gain_ng D p q data lrate); auto.
  - apply (gain_ig D p q data lrate); auto.
  - destruct (gain_nw D p q data lrate Wp Wq Hx Hw Hl) as (q' & b & b' & m & E & B1 & B2 & Em & Hb).
    rewrite E. cbn [or_default moved cell_form cell_kl]. unfold nw_elbo in B1, B2. rewrite Em. cbn [or_default].
    destruct (nw_ess q) as [e1|] eqn:Q1; [|discriminate]. destruct (nw_ess q') as [e2|] eqn:Q2; [|discriminate].
    cbn [bindr] in B1, B2. destruct (nw_kl q p) as [k1|]; [|discriminate]. destruct (nw_kl q' p) as [k2|]; [|discriminate].
    cbn [bindr] in B1, B2. injection B1 as <-. injection B2 as <-. cbn [or_default]. exact Hb.
  - destruct Hx as [Hx Hv]. rewrite (proj1 Wp) in Hx. apply (gain_dir D p q data lrate); auto.
Qed.

Lemma total_moved_cells skel st st' : (forall p, length (st' p) = length (st p)) ->
  total_moved skel st st' = sumf (fun q => moved (cell_at st q) (cell_at st' q)) (allcells st (params skel)).
Proof.
  intros HL. unfold total_moved, allcells. rewrite sumf_flat_map. apply sumf_ext. intros p _. rewrite sumf_map.
  unfold cell_at. cbn [fst snd]. specialize (HL p). revert HL. generalize (st p) (st' p).
  induction l as [|c l IH]; intros l' HL; [reflexivity|]. destruct l' as [|c' l']; [discriminate|].
  cbn [length seq combine]. rewrite !sumf_cons. f_equal. rewrite <- seq_shift, sumf_map. cbn [nth]. apply IH.
  cbn in HL. lia.
Qed.

(** ** One step *)
Section Step.
  Variables (amax : nat -> (nat -> lp) -> nat) (k : kind) (D : nat) (scale : R) (skel : mset).
  Hypothesis Hscale : 0 <= scale.
  Hypothesis Hnd : NoDup (params skel).
  Local Notation acc_of := (acc_of amax scale skel).
  Local Notation urow := (urow scale skel).

  Lemma cell_gain st utts w lrate group q : typed k D st skel -> Forall (utt_ok k D skel) utts -> 0 <= w ->
    0 <= lrate <= 1 -> In q (allcells st (params skel)) ->
    let st' := apply_step w lrate group (map (acc_of st) utts) st in
    let c := cell_at st q in let c' := cell_at st' q in
    moved c c' + lrate * (cell_kl c' - cell_kl c) <= lrate *
    sumf (fun i => w * sumf (fun u => urow st u q i) utts * (nth i (form st' q) 0 - nth i (form st q) 0))
      (seq 0 (length (form st q))).
  Proof.
    intros T HU Hw Hl Hq st' c c'. destruct q as [p i]. assert (Hq' := Hq). apply allcells_in in Hq'. destruct Hq' as [Hp Hi].
    assert (Hst : length (st' p) = length (st p)).
    { unfold st', apply_step. destruct (existsb _ group); [|reflexivity]. rewrite map2_length, seq_length. lia. }
    assert (Ef : form st (p, i) = cell_form c) by (unfold form; cbn [fst snd]; now rewrite forms_nth).
    assert (Ef' : form st' (p, i) = cell_form c') by (unfold form; cbn [fst snd]; rewrite forms_nth by lia; reflexivity).
    destruct (total_data amax k D scale skel Hscale Hnd st utts (p, i) w T HU Hw Hq) as (E1 & L1 & data & F & E2).
    specialize (E2 (fun v Hv => fits_length amax k D skel st (p, i) v T Hq Hv)).
    destruct (existsb (Nat.eqb p) group) eqn:Eg.
    - set (stats := total w (length (form st (p, i))) p i (map (acc_of st) utts)).
      assert (Ec : c' = cell_update lrate stats c).
      { unfold c', cell_at, st', apply_step. cbn [fst snd]. rewrite Eg.
        rewrite (map2_nth _ _ _ _ 0%nat dc) by (rewrite ?seq_length; auto). rewrite seq_nth by auto.
        unfold stats. rewrite Ef. reflexivity. }
      cbn [fst snd] in E1, L1, E2. fold stats in E1, L1, E2. rewrite Ef in E2. fold c in E2.
      assert (Hin : forall cc, cell_at st (p, i) = cc -> length (cell_form c') = length (cell_form c) ->
         moved c c' <= lrate * (dot stats (cell_form c') - cell_kl c' - (dot stats (cell_form c) - cell_kl c)) ->
         moved c c' + lrate * (cell_kl c' - cell_kl c) <= lrate * sumf (fun i0 => w * sumf (fun u => urow st u (p, i) i0) utts *
           (nth i0 (form st' (p, i)) 0 - nth i0 (form st (p, i)) 0)) (seq 0 (length (form st (p, i))))).
      { intros _ _ Hlen Hb.
        rewrite (sumf_ext _ (fun a => nth a stats 0 * (nth a (form st' (p, i)) 0 - nth a (form st (p, i)) 0))).
        2:{ intros a Ha. apply in_seq in Ha. rewrite E1 by lia. reflexivity. }
        rewrite <- dot_diff by (rewrite L1, ?Ef', ?Ef, ?Hlen; reflexivity).
        rewrite Ef, Ef'. lra. }
      destruct (typed_cells k D st skel p i T Hp Hi) as [Lc|(n & Wc)].
      + change (nth i (st p) dc) with c in Lc.
        destruct (leaf_step k D lrate c data Lc Hl F) as [A _]. assert (B := leaf_gain k D lrate c data Lc Hl F).
        cbv zeta in A, B. rewrite <- E2, <- Ec in A, B.
        apply (Hin c eq_refl); auto. now rewrite !(leaf_form_length k D).
      + change (nth i (st p) dc) with c in Wc.
        destruct (weights_step n D lrate c data Wc Hl F) as [A _]. assert (B := weights_gain n D lrate c data Wc Hl F).
        cbv zeta in A, B. rewrite <- E2, <- Ec in A, B.
        apply (Hin c eq_refl); auto. now rewrite !(weights_form_length n).
    - assert (Ec : c' = c) by (unfold c', c, cell_at, st', apply_step; cbn [fst snd]; now rewrite Eg).
      rewrite Ef, Ef', Ec. rewrite (moved_self k D) by (destruct (typed_cells k D st skel p i T Hp Hi) as [|(n & Wc)]; eauto).
      rewrite sumf_zero; [lra|]. intros; ring.
  Qed.

  Lemma step_gain st utts w lrate group : typed k D st skel -> Forall (utt_ok k D skel) utts -> 0 <= w ->
    0 <= lrate <= 1 ->
    let st' := apply_step w lrate group (map (acc_of st) utts) st in
    total_moved skel st st' <= lrate * (bound scale w skel utts st' - bound scale w skel utts st).
  Proof.
    intros T HU Hw Hl. cbv zeta. assert (T' := step_typed amax k D scale skel Hscale Hnd st utts w lrate group T HU Hw Hl).
    set (st' := apply_step _ _ _ _ _) in *. set (Q := allcells st (params skel)).
    assert (HQ : NoDup Q) by (now apply allcells_nodup).
    assert (EQ : allcells st' (params skel) = Q).
    { unfold Q, allcells. rewrite !flat_map_concat_map. f_equal. apply map_ext. intros p. f_equal. f_equal.
      unfold st', apply_step. destruct (existsb _ group); [|reflexivity]. rewrite map2_length, seq_length. lia. }
    rewrite total_moved_cells.
    2:{ intros p. unfold st', apply_step. destruct (existsb _ group); [|reflexivity]. rewrite map2_length, seq_length. lia. }
    unfold bound. rewrite !total_kl_cells, EQ. fold Q.
    assert (G : sumf (fun u => sumf (fun q => sumf (fun i => urow st u q i * (nth i (form st' q) 0 - nth i (form st q) 0))
                (seq 0 (length (form st q)))) Q) utts <=
      sumf (fun u => ln (evidence (u_graph u) (frames scale (utt_ems skel st' u) (u_stats u))) -
                     ln (evidence (u_graph u) (frames scale (utt_ems skel st u) (u_stats u)))) utts).
    { apply sumf_le. intros u Hu. rewrite Forall_forall in HU. assert (U := HU u Hu).
      assert (P1 := utt_evidence k D scale skel st u T U). assert (P2 := utt_evidence k D scale skel st' u T' U). unfold urow.
      rewrite (utt_ems_einst k D skel st u T U) in *. rewrite (utt_ems_einst k D skel st' u T' U) in *.
      assert (Et := sk_ems_typed k D skel st u T U). assert (Et' := sk_ems_typed k D skel st' u T' U).
      destruct U as (Hne & (xs & Exs & Hxs) & Ho & Hn & _).
      apply (utt_gain k D st st' (params skel) Q); auto.
      - intros p i Hp Hi. now apply allcells_in.
      - unfold sk_ems. now rewrite map_length.
      - rewrite Exs. apply Forall_map. eapply Forall_impl; [|exact Hxs]. intros x Hx. now apply suff_length. }
    rewrite sumf_minus in G. apply (Rmult_le_compat_l w) in G; [|exact Hw].
    assert (K : sumf (fun q => moved (cell_at st q) (cell_at st' q) + lrate * (cell_kl (cell_at st' q) - cell_kl (cell_at st q))) Q <=
      sumf (fun q => lrate * sumf (fun i => w * sumf (fun u => urow st u q i) utts * (nth i (form st' q) 0 - nth i (form st q) 0))
        (seq 0 (length (form st q)))) Q).
    { apply sumf_le. intros q Hq. now apply (cell_gain st utts w lrate group q T HU Hw Hl Hq). }
    rewrite sumf_plus, !sumf_scal_l, sumf_minus in K.
    assert (E : sumf (fun q => sumf (fun i => w * sumf (fun u => urow st u q i) utts * (nth i (form st' q) 0 - nth i (form st q) 0))
        (seq 0 (length (form st q)))) Q =
      w * sumf (fun u => sumf (fun q => sumf (fun i => urow st u q i * (nth i (form st' q) 0 - nth i (form st q) 0))
                (seq 0 (length (form st q)))) Q) utts).
    { rewrite sumf_swap, <- sumf_scal_l. apply sumf_ext. intros q _. rewrite sumf_swap, <- sumf_scal_l.
      apply sumf_ext. intros i _. rewrite Rmult_assoc, <- sumf_scal_r. reflexivity. }
    rewrite E in K. apply (Rmult_le_compat_l lrate) in G; [|lra]. lra.
  Qed.
End Step.

(** NormalWishart: parameters, updates. *)
From Coq Require Import Reals List Arith Bool Lia Lra.
From Verif Require Import Prelude Vec Gibbs Lgamma Dist_Model Dist_Spec Dist_Proofs NG_Proofs Mat NW_Model NW_Spec LMat.
Import ListNotations.
Local Open Scope R_scope.

(** Natural vectors described by mean, scale, inverse scale matrix, dof. *)
Definition npar (D : nat) (n : list R) (m : fv) (k : R) (P : fm) (v : R) : Prop :=
  length n = (D + (D * D + 2))%nat /\
  (forall i, (i < D)%nat -> nth i n 0 = k * m i) /\
  (forall i j, (i < D)%nat -> (j < D)%nat ->
     nth (D + (i * D + j)) n 0 = - (1/2) * (P i j + k * (m i * m j))) /\
  nth (D + (D * D)) n 0 = - (1/2) * k /\
  nth (D + (D * D + 1)) n 0 = 1/2 * (v - INR D).

Lemma nth_two (a b : R) : nth 0 ([a] ++ [b]) 0 = a /\ nth 1 ([a] ++ [b]) 0 = b.
Proof. split; reflexivity. Qed.

Lemma nw_nat_npar D p P : length (nw_mean p) = D -> is_mat D (nw_W p) -> is_inverse D (mget (nw_W p)) P ->
  exists n, nw_nat p = Ok n /\ npar D n (vf (nw_mean p)) (nw_scale p) P (nw_dof p).
Proof.
  intros H1 H2 H3. unfold nw_nat. rewrite (t_inverse_ok D _ P H2 H3). cbn [bindr].
  eexists. split; [reflexivity|].
  assert (Ho := outer_is_mat D _ _ H1 H1).
  assert (Hs := lmscale_is_mat D (nw_scale p) _ Ho).
  assert (Hm : is_mat D (lmadd (mk D P) (lmscale (nw_scale p) (outer (nw_mean p) (nw_mean p)))))
    by (apply map2_is_mat; auto using is_mat_mk).
  set (M := lmadd _ _) in *.
  assert (L1 : length (vscale (nw_scale p) (nw_mean p)) = D) by (rewrite vscale_length; auto).
  assert (L2 : length (vscale (- (1/2)) (concat M)) = (D * D)%nat) by (rewrite vscale_length; now apply concat_flat).
  unfold npar. split; [|split; [|split; [|split]]].
  - rewrite !app_length, L1, L2. reflexivity.
  - intros i Hi. rewrite nth_app_l by lia. apply vscale_nth.
  - intros i j Hi Hj. rewrite nth_app_r by auto. rewrite nth_app_l by (rewrite L2; now apply flat_lt).
    rewrite vscale_nth, (concat_nth D) by auto. unfold M, lmadd.
    rewrite (map2_get D) by (auto using is_mat_mk). rewrite mget_mk, lmscale_get, outer_get by lia.
    reflexivity.
  - rewrite nth_app_r by auto. replace (D * D)%nat with (D * D + 0)%nat by lia.
    rewrite nth_app_r by auto. reflexivity.
  - rewrite nth_app_r by auto. rewrite nth_app_r by auto. rewrite H1. reflexivity.
Qed.

Lemma nw_par_ext p q : nw_mean p = nw_mean q -> nw_scale p = nw_scale q -> nw_W p = nw_W q ->
  nw_dof p = nw_dof q -> p = q.
Proof. destruct p, q; simpl; intros; subst; reflexivity. Qed.

(** Standard parameters of a natural vector *)
Lemma nw_from_npar D n m k P v W : npar D n m k P v -> k <> 0 -> is_inverse D P W ->
  nw_from_nat n = Ok {| nw_mean := map m (seq 0 D); nw_scale := k; nw_W := mk D W; nw_dof := v |}.
Proof.
  intros (H1 & H2 & H3 & H4 & H5) Hk HW. unfold nw_from_nat. rewrite H1.
  replace (D + (D * D + 2) - 2)%nat with (D + D * D)%nat by lia. rewrite dim_of_spec.
  assert (Ls : length (slice D (D * (D + 1)) n) = (D * D)%nat) by (rewrite slice_length; nia).
  rewrite Ls, Nat.eqb_refl.
  rewrite !(from_end_nth n _ (D + (D * D + 2))) by auto.
  replace (D + (D * D + 2) - 2)%nat with (D + D * D)%nat by lia.
  replace (D + (D * D + 2) - 1)%nat with (D + (D * D + 1))%nat by lia.
  rewrite H4, H5. replace (-2 * (- (1/2) * k)) with k by lra.
  replace (2 * (1/2 * (v - INR D)) + INR D) with v by lra.
  assert (Em : map (fun x => x / k) (firstn D n) = map m (seq 0 D)).
  { apply vec_ext; [rewrite !map_length, firstn_length, seq_length; lia|].
    intros i Hi. rewrite map_length, firstn_length in Hi.
    rewrite map_nth_R by (rewrite firstn_length; lia). rewrite firstn_nth_lt, H2, map_seq_nth by lia. now field. }
  rewrite Em.
  assert (Lm : length (map m (seq 0 D)) = D) by (now rewrite map_length, seq_length).
  assert (Ho := outer_is_mat D _ _ Lm Lm). assert (Hr := reshape_is_mat D _ Ls).
  rewrite (t_inverse_ok D _ W).
  - reflexivity.
  - apply map2_is_mat; apply lmscale_is_mat; auto.
  - eapply is_inverse_ext; [|apply meq_refl|exact HW].
    intros i j Hi Hj. unfold lmsub. rewrite (map2_get D) by (auto using lmscale_is_mat).
    rewrite !lmscale_get, reshape_get, outer_get, !map_seq_nth by (auto; lia).
    rewrite slice_nth by nia. rewrite H3 by auto. lra.
Qed.

Lemma npar_ext D n m k P v m' P' : npar D n m k P v -> (forall i, (i < D)%nat -> m i = m' i) -> meq D P P' ->
  npar D n m' k P' v.
Proof.
  intros (H1 & H2 & H3 & H4 & H5) Em EP. unfold npar. split; [auto|split; [|split; [|auto]]].
  - intros i Hi. rewrite H2, Em by auto. reflexivity.
  - intros i j Hi Hj. rewrite H3, EP, !Em by auto. reflexivity.
Qed.

Lemma npar_fun D n n' m k P v : npar D n m k P v -> npar D n' m k P v -> n = n'.
Proof.
  intros (H1 & H2 & H3 & H4 & H5) (G1 & G2 & G3 & G4 & G5).
  apply vec_ext; [congruence|]. intros i Hi. rewrite H1 in Hi.
  destruct (lt_dec i D) as [A|A]; [rewrite H2, G2; auto|].
  destruct (lt_dec i (D + D * D)) as [B|B].
  - assert (HD : D <> 0%nat) by nia.
    set (a := (i - D)%nat). assert (Ea := Nat.div_mod a D HD).
    assert (Hb := Nat.mod_upper_bound a D HD).
    assert (Ha : (a / D < D)%nat) by (apply Nat.div_lt_upper_bound; auto; unfold a; lia).
    replace i with (D + (a / D * D + a mod D))%nat by (unfold a in *; lia).
    rewrite H3, G3 by auto. reflexivity.
  - assert (C : i = (D + D * D)%nat \/ i = (D + (D * D + 1))%nat) by lia.
    destruct C as [-> | ->]; congruence.
Qed.

(** A natural vector with proper parameters: standard parameters and back. *)
Lemma npar_std D n m k P v : npar D n m k P v -> 0 < k -> posdef D P -> INR D - 1 < v ->
  exists q, nw_from_nat n = Ok q /\ nw_ok D q /\ nw_nat q = Ok n /\ nw_scale q = k /\ nw_dof q = v /\
    nw_mean q = map m (seq 0 D) /\ is_inverse D (mget (nw_W q)) P.
Proof.
  intros Hn Hk HP Hv. destruct (posdef_inverse D P HP) as (W & _ & HW).
  eexists. split; [apply (nw_from_npar D n m k P v W); auto; lra|].
  set (q := {| nw_mean := _ |}).
  assert (Lm : length (nw_mean q) = D) by (unfold q; simpl; now rewrite map_length, seq_length).
  assert (HW' : is_inverse D (mget (nw_W q)) P).
  { apply is_inverse_sym in HW. eapply is_inverse_ext; [|apply meq_refl|exact HW].
    apply meq_sym, mk_meq. }
  split; [|split; [|split; [|split; [|split]]]]; try reflexivity; auto.
  - unfold nw_ok. split; [auto|]. split; [apply is_mat_mk|]. split; [|simpl; auto].
    eapply inverse_posdef; [exact HP|]. now apply is_inverse_sym.
  - destruct (nw_nat_npar D q P Lm (is_mat_mk D W) HW') as (n' & E & Hn').
    rewrite E. f_equal. apply (npar_fun D n' n (vf (nw_mean q)) k P v); [exact Hn'|].
    apply (npar_ext D n m k P v); auto using meq_refl.
    intros i Hi. unfold vf, q. simpl. now rewrite map_seq_nth by auto.
Qed.

Lemma nw_ok_npar D p : nw_ok D p -> exists n P, nw_nat p = Ok n /\ posdef D P /\
  is_inverse D (mget (nw_W p)) P /\ npar D n (vf (nw_mean p)) (nw_scale p) P (nw_dof p).
Proof.
  intros (H1 & H2 & H3 & H4 & H5). destruct (posdef_inverse D _ H3) as (P & _ & HP).
  destruct (nw_nat_npar D p P H1 H2 HP) as (n & E & Hn).
  exists n, P. repeat (split; [assumption || (eapply inverse_posdef; eassumption)|]). exact Hn.
Qed.

Lemma nw_nat_sound D p n : length (nw_mean p) = D -> is_mat D (nw_W p) -> nw_nat p = Ok n ->
  exists P, is_inverse D (mget (nw_W p)) P /\ npar D n (vf (nw_mean p)) (nw_scale p) P (nw_dof p).
Proof.
  intros H1 H2 H. destruct (t_inverse (nw_W p)) as [B|e] eqn:E.
  - destruct (t_inverse_sound D _ _ H2 E) as (_ & HB). exists (mget B). split; auto.
    destruct (nw_nat_npar D p (mget B) H1 H2 HB) as (n' & E' & Hn'). congruence.
  - unfold nw_nat in H. rewrite E in H. discriminate.
Qed.

Lemma nw_roundtrip D p n : length (nw_mean p) = D -> is_mat D (nw_W p) -> nw_scale p <> 0 ->
  nw_nat p = Ok n -> nw_from_nat n = Ok p.
Proof.
  intros H1 H2 H3 H. destruct (nw_nat_sound D p n H1 H2 H) as (P & HP & Hn).
  rewrite (nw_from_npar D n _ _ P _ (mget (nw_W p)) Hn H3 (is_inverse_sym _ _ _ HP)). f_equal.
  apply nw_par_ext; simpl; auto; [|now apply mk_mget].
  apply vec_ext; [now rewrite map_length, seq_length|]. rewrite map_length, seq_length.
  intros i Hi. rewrite map_seq_nth by auto. reflexivity.
Qed.

(** Every vector of the right length is a natural vector of something. *)
Lemma npar_exists D n : length n = (D + (D * D + 2))%nat -> nth (D + D * D) n 0 <> 0 ->
  exists m k P v, k <> 0 /\ npar D n m k P v.
Proof.
  intros H1 H2. set (k := -2 * nth (D + D * D) n 0).
  exists (fun i => nth i n 0 / k), k,
    (fun i j => -2 * nth (D + (i * D + j)) n 0 - k * (nth i n 0 / k * (nth j n 0 / k))),
    (2 * nth (D + (D * D + 1)) n 0 + INR D).
  assert (Hk : k <> 0) by (unfold k; lra).
  split; [auto|]. unfold npar. split; [auto|split; [|split; [|split]]].
  - intros i Hi. field. auto.
  - intros i j Hi Hj. field. auto.
  - unfold k. lra.
  - lra.
Qed.

Lemma nw_roundtrip' D n p : length n = (D + (D * D + 2))%nat -> nth (D + D * D) n 0 <> 0 ->
  nw_from_nat n = Ok p -> nw_nat p = Ok n.
Proof.
  intros H1 H2 H. destruct (npar_exists D n H1 H2) as (m & k & P & v & Hk & Hn).
  assert (G := Hn). destruct G as (G1 & G2 & G3 & G4 & G5).
  destruct (minv D P) as [W|] eqn:EW.
  - apply minv_sound in EW. rewrite (nw_from_npar D n m k P v W Hn Hk EW) in H. injection H as <-.
    edestruct (nw_nat_npar D {| nw_mean := map m (seq 0 D); nw_scale := k; nw_W := mk D W; nw_dof := v |} P)
      as (n' & E & Hn').
    + simpl. now rewrite map_length, seq_length.
    + apply is_mat_mk.
    + apply is_inverse_sym in EW. eapply is_inverse_ext; [|apply meq_refl|exact EW]. apply meq_sym, mk_meq.
    + rewrite E. f_equal. eapply npar_fun; [exact Hn'|]. simpl.
      eapply npar_ext; [exact Hn| |apply meq_refl]. intros i Hi. unfold vf. now rewrite map_seq_nth.
  - (* not invertible: from_nat fails *)
    exfalso. unfold nw_from_nat in H. rewrite H1 in H.
    replace (D + (D * D + 2) - 2)%nat with (D + D * D)%nat in H by lia. rewrite dim_of_spec in H.
    assert (Ls : length (slice D (D * (D + 1)) n) = (D * D)%nat) by (rewrite slice_length; nia).
    rewrite Ls, Nat.eqb_refl in H.
    match type of H with bindr (t_inverse ?M) _ = _ => set (Q := M) in H end.
    destruct (t_inverse Q) as [B|] eqn:EQ; [|discriminate].
    assert (HQ : is_mat D Q).
    { apply map2_is_mat; apply lmscale_is_mat; auto using reshape_is_mat.
      apply outer_is_mat; rewrite map_length, firstn_length; lia. }
    destruct (t_inverse_sound D Q B HQ EQ) as (_ & HB).
    assert (EP : meq D (mget Q) P).
    { intros i j Hi Hj. unfold Q, lmsub.
      assert (Lf : length (map (fun x : R => x / (-2 * from_end 2 n)) (firstn D n)) = D)
        by (rewrite map_length, firstn_length; lia).
      rewrite (map2_get D) by (auto using lmscale_is_mat, reshape_is_mat, outer_is_mat).
      rewrite !lmscale_get, reshape_get, outer_get by (auto; lia).
      rewrite !map_nth_R, !firstn_nth_lt by (rewrite ?firstn_length; lia).
      rewrite slice_nth by nia. rewrite !(from_end_nth n _ (D + (D * D + 2))) by auto.
      replace (D + (D * D + 2) - 2)%nat with (D + D * D)%nat by lia.
      rewrite G4, G3, (G2 i), (G2 j) by auto. replace (-2 * (- (1/2) * k)) with k by lra. field. auto. }
    assert (HP : is_inverse D P (mget B)).
    { eapply is_inverse_ext; [exact EP|apply meq_refl|exact HB]. }
    destruct (minv_spec D P _ HP) as (B' & E' & _). congruence.
Qed.

(** ** Statistics *)
Lemma nl_suff_length D x : length x = D -> length (nl_suff_stats x) = (D + (D * D + 2))%nat.
Proof.
  intros H. unfold nl_suff_stats. rewrite !app_length, vscale_length, (concat_flat D) by (now apply outer_is_mat).
  simpl. lia.
Qed.

Lemma nl_suff_npar D x : length x = D ->
  (forall i, (i < D)%nat -> nth i (nl_suff_stats x) 0 = nth i x 0) /\
  (forall i j, (i < D)%nat -> (j < D)%nat ->
     nth (D + (i * D + j)) (nl_suff_stats x) 0 = - (1/2) * (nth i x 0 * nth j x 0)) /\
  nth (D + D * D) (nl_suff_stats x) 0 = - (1/2) /\ nth (D + (D * D + 1)) (nl_suff_stats x) 0 = 1/2.
Proof.
  intros H. unfold nl_suff_stats. assert (Ho := outer_is_mat D x x H H).
  assert (L2 : length (vscale (- (1/2)) (concat (outer x x))) = (D * D)%nat) by (rewrite vscale_length; now apply concat_flat).
  split; [|split; [|split]].
  - intros i Hi. now rewrite nth_app_l by lia.
  - intros i j Hi Hj. rewrite nth_app_r by auto. rewrite nth_app_l by (rewrite L2; now apply flat_lt).
    rewrite vscale_nth, (concat_nth D), outer_get by (auto; lia). reflexivity.
  - rewrite nth_app_r by auto. replace (D * D)%nat with (D * D + 0)%nat by lia.
    rewrite nth_app_r by auto. reflexivity.
  - rewrite nth_app_r by auto. rewrite nth_app_r by auto. reflexivity.
Qed.

Definition Qw (i j : nat) (data : wdata) : R :=
  sumf (fun gx => fst gx * (nth i (snd gx) 0 * nth j (snd gx) 0)) data.

Lemma nl_wstats D data : frames_of_dim D data ->
  let st := wstats (D + (D * D + 2)) nl_suff_stats data in
  length st = (D + (D * D + 2))%nat /\
  (forall i, (i < D)%nat -> nth i st 0 = Sw i data) /\
  (forall i j, (i < D)%nat -> (j < D)%nat -> nth (D + (i * D + j)) st 0 = - (1/2) * Qw i j data) /\
  nth (D + D * D) st 0 = - (1/2) * Nw data /\ nth (D + (D * D + 1)) st 0 = 1/2 * Nw data.
Proof.
  intros Hx st. unfold frames_of_dim in Hx. rewrite Forall_forall in Hx.
  assert (HL : forall gx, In gx data -> length (nl_suff_stats (snd gx)) = (D + (D * D + 2))%nat)
    by (intros gx Hg; apply nl_suff_length; auto).
  assert (F : forall k, (k < D + (D * D + 2))%nat -> nth k st 0 = sumf (fun gx => fst gx * nth k (nl_suff_stats (snd gx)) 0) data)
    by (intros k Hk; apply wstats_nth; auto).
  split; [now apply wstats_length|]. split; [|split; [|split]].
  - intros i Hi. rewrite F by lia. apply sumf_ext. intros gx Hg.
    destruct (nl_suff_npar D (snd gx) (Hx gx Hg)) as (A & _). rewrite A by auto. reflexivity.
  - intros i j Hi Hj. rewrite F by (assert (T := flat_lt D i j Hi Hj); lia). unfold Qw. rewrite <- sumf_scal_l. apply sumf_ext.
    intros gx Hg. destruct (nl_suff_npar D (snd gx) (Hx gx Hg)) as (_ & A & _). rewrite A by auto. ring.
  - rewrite F by lia. unfold Nw. rewrite <- sumf_scal_l. apply sumf_ext.
    intros gx Hg. destruct (nl_suff_npar D (snd gx) (Hx gx Hg)) as (_ & _ & A & _). rewrite A. ring.
  - rewrite F by lia. unfold Nw. rewrite <- sumf_scal_l. apply sumf_ext.
    intros gx Hg. destruct (nl_suff_npar D (snd gx) (Hx gx Hg)) as (_ & _ & _ & A). rewrite A. ring.
Qed.

(** ** Adding the statistics of data *)
Definition dmean (m : fv) (k : R) (data : wdata) : fv := fun i => (k * m i + Sw i data) / (k + Nw data).
Definition dprec (m : fv) (k : R) (P : fm) (data : wdata) : fm := fun i j =>
  P i j + k * (m i * m j) + Qw i j data - (k + Nw data) * (dmean m k data i * dmean m k data j).

Lemma npar_data D n m k P v data : npar D n m k P v -> frames_of_dim D data -> k + Nw data <> 0 ->
  npar D (vadd n (wstats (D + (D * D + 2)) nl_suff_stats data))
    (dmean m k data) (k + Nw data) (dprec m k P data) (v + Nw data).
Proof.
  intros (H1 & H2 & H3 & H4 & H5) Hx Hk. destruct (nl_wstats D data Hx) as (S1 & S2 & S3 & S4 & S5).
  set (st := wstats _ _ _) in *. unfold npar. split; [|split; [|split; [|split]]].
  - rewrite vadd_length; congruence.
  - intros i Hi. rewrite vadd_nth by lia. rewrite H2, S2 by auto. unfold dmean. now field.
  - intros i j Hi Hj. assert (T := flat_lt D i j Hi Hj). rewrite vadd_nth by lia.
    rewrite H3, S3 by auto. unfold dprec. lra.
  - rewrite vadd_nth by lia. rewrite H4, S4. lra.
  - rewrite vadd_nth by lia. rewrite H5, S5. lra.
Qed.

Lemma Scat_expand D i j c data : frames_of_dim D data ->
  Scat i j c data = Qw i j data - nth i c 0 * Sw j data - nth j c 0 * Sw i data
    + nth i c 0 * nth j c 0 * Nw data.
Proof.
  intros _. unfold Scat, Qw, Sw, Nw. induction data as [|[g x] data IH].
  - unfold sumf. simpl. ring.
  - rewrite !sumf_cons. simpl fst in *. simpl snd in *. rewrite IH. ring.
Qed.

Lemma dprec_scatter D m k P data c i j : frames_of_dim D data -> k + Nw data <> 0 ->
  (forall a, (a < D)%nat -> nth a c 0 = dmean m k data a) -> (i < D)%nat -> (j < D)%nat ->
  dprec m k P data i j =
  P i j + Scat i j c data + k * ((m i - nth i c 0) * (m j - nth j c 0)).
Proof.
  intros Hx Hk Hc Hi Hj. rewrite (Scat_expand D) by auto. unfold dprec. rewrite !Hc by auto.
  unfold dmean. field. auto.
Qed.

(** Quadratic forms *)
Lemma quad_bsum D A x : quad D A x = bsum D (fun i => bsum D (fun j => x i * x j * A i j)).
Proof.
  unfold quad, dotf, mvm. apply bsum_ext. intros i Hi. rewrite <- bsum_scal. apply bsum_ext. intros; ring.
Qed.

Lemma quad_outer D u x : quad D (fun i j => u i * u j) x = (dotf D u x) ^ 2.
Proof.
  rewrite quad_bsum. unfold dotf. replace (bsum D (fun i => u i * x i) ^ 2) with
    (bsum D (fun i => u i * x i) * bsum D (fun i => u i * x i)) by ring.
  rewrite <- bsum_scal_r. apply bsum_ext. intros i Hi. rewrite <- bsum_scal. apply bsum_ext. intros; ring.
Qed.

Lemma quad_plus D A B x : quad D (fun i j => A i j + B i j) x = quad D A x + quad D B x.
Proof.
  rewrite !quad_bsum, <- bsum_plus. apply bsum_ext. intros i Hi. rewrite <- bsum_plus.
  apply bsum_ext. intros; ring.
Qed.

Lemma quad_scal D c A x : quad D (fun i j => c * A i j) x = c * quad D A x.
Proof.
  rewrite !quad_bsum, <- bsum_scal. apply bsum_ext. intros i Hi. rewrite <- bsum_scal.
  apply bsum_ext. intros; ring.
Qed.

Lemma quad_ext' D A B x : meq D A B -> quad D A x = quad D B x.
Proof. intros H. apply quad_ext; auto. Qed.

Lemma quad_Scat D data c x : nonneg_weights data -> 0 <= quad D (fun i j => Scat i j c data) x.
Proof.
  unfold Scat. induction data as [|[g y] data IH]; intros Hw.
  - rewrite quad_bsum. apply Req_le. symmetry. apply bsum_zero. intros i Hi. apply bsum_zero. intros j Hj.
    unfold sumf. simpl. ring.
  - inversion Hw as [|? ? W1 W2]; subst. simpl in W1.
    rewrite (quad_ext' D _ (fun i j => g * ((nth i y 0 - nth i c 0) * (nth j y 0 - nth j c 0)) +
      sumf (fun gx => fst gx * (nth i (snd gx) 0 - nth i c 0) * (nth j (snd gx) 0 - nth j c 0)) data)).
    2:{ intros i j Hi Hj. rewrite sumf_cons. simpl. ring. }
    rewrite quad_plus, quad_scal, (quad_outer D (fun i => nth i y 0 - nth i c 0)).
    assert (0 <= g * dotf D (fun i => nth i y 0 - nth i c 0) x ^ 2) by (apply Rmult_le_pos; auto; apply pow2_ge_0).
    specialize (IH W2). lra.
Qed.

Lemma posdef_dprec D m k P data : 0 < k -> posdef D P -> frames_of_dim D data -> nonneg_weights data ->
  posdef D (dprec m k P data).
Proof.
  intros Hk (HS & HP) Hx Hw. assert (N0 := Nw_nonneg data Hw). split.
  - intros i j Hi Hj. unfold dprec. rewrite (HS i j) by auto.
    replace (Qw i j data) with (Qw j i data) by (apply sumf_ext; intros; ring). ring.
  - intros x Hnz. set (c := map (dmean m k data) (seq 0 D)).
    assert (Hc : forall a, (a < D)%nat -> nth a c 0 = dmean m k data a) by (intros; apply map_seq_nth; auto).
    rewrite (quad_ext' D _ (fun i j => (P i j + Scat i j c data) + k * ((m i - nth i c 0) * (m j - nth j c 0)))).
    2:{ intros i j Hi Hj. apply (dprec_scatter D); auto. lra. }
    rewrite quad_plus, quad_plus, quad_scal, (quad_outer D (fun i => m i - nth i c 0)).
    assert (A := HP x Hnz). assert (B := quad_Scat D data c x Hw).
    assert (0 <= k * dotf D (fun i => m i - nth i c 0) x ^ 2) by (apply Rmult_le_pos; [lra|apply pow2_ge_0]).
    lra.
Qed.

(** ** Mixtures of natural vectors *)
Definition xmean (l k1 k2 : R) (m1 m2 : fv) : fv := fun i =>
  ((1 - l) * k1 * m1 i + l * k2 * m2 i) / ((1 - l) * k1 + l * k2).
Definition xprec (l k1 k2 : R) (m1 m2 : fv) (P1 P2 : fm) : fm := fun i j =>
  (1 - l) * (P1 i j + k1 * (m1 i * m1 j)) + l * (P2 i j + k2 * (m2 i * m2 j))
  - ((1 - l) * k1 + l * k2) * (xmean l k1 k2 m1 m2 i * xmean l k1 k2 m1 m2 j).

Lemma npar_mix D l n1 m1 k1 P1 v1 n2 m2 k2 P2 v2 :
  npar D n1 m1 k1 P1 v1 -> npar D n2 m2 k2 P2 v2 -> (1 - l) * k1 + l * k2 <> 0 ->
  npar D (vadd n1 (vscale l (vsub n2 n1))) (xmean l k1 k2 m1 m2) ((1 - l) * k1 + l * k2)
    (xprec l k1 k2 m1 m2 P1 P2) ((1 - l) * v1 + l * v2).
Proof.
  intros (H1 & H2 & H3 & H4 & H5) (G1 & G2 & G3 & G4 & G5) Hk.
  unfold npar. split; [|split; [|split; [|split]]].
  - rewrite vlin_length; congruence.
  - intros i Hi. rewrite vlin_nth by (congruence || lia). rewrite H2, G2 by auto. unfold xmean. now field.
  - intros i j Hi Hj. assert (T := flat_lt D i j Hi Hj). rewrite vlin_nth by (congruence || lia).
    rewrite H3, G3 by auto. unfold xprec. lra.
  - rewrite vlin_nth by (congruence || lia). rewrite H4, G4. lra.
  - rewrite vlin_nth by (congruence || lia). rewrite H5, G5. lra.
Qed.

Lemma posdef_xprec D l k1 k2 m1 m2 P1 P2 : 0 <= l <= 1 -> 0 < k1 -> 0 < k2 -> posdef D P1 -> posdef D P2 ->
  posdef D (xprec l k1 k2 m1 m2 P1 P2).
Proof.
  intros Hl Hk1 Hk2 (S1 & A1) (S2 & A2). assert (Hk := convex_pos l k1 k2 Hl Hk1 Hk2). split.
  - intros i j Hi Hj. unfold xprec. rewrite (S1 i j), (S2 i j) by auto. ring.
  - intros x Hnz. set (k := (1 - l) * k1 + l * k2) in *.
    rewrite (quad_ext' D _ (fun i j =>
      ((1 - l) * (P1 i j + k1 * (m1 i * m1 j)) + l * (P2 i j + k2 * (m2 i * m2 j)))
      + - k * (xmean l k1 k2 m1 m2 i * xmean l k1 k2 m1 m2 j))).
    2:{ intros i j Hi Hj. unfold xprec. fold k. ring. }
    rewrite quad_plus, (quad_scal D (- k)), (quad_outer D (xmean l k1 k2 m1 m2)), quad_plus, !quad_scal, !quad_plus, !quad_scal, !quad_outer.
    assert (E : dotf D (xmean l k1 k2 m1 m2) x = ((1 - l) * (k1 * dotf D m1 x) + l * (k2 * dotf D m2 x)) / k).
    { unfold dotf. rewrite <- !bsum_scal, <- bsum_plus, <- bsum_div. apply bsum_ext. intros i Hi.
      unfold xmean. fold k. field. lra. }
    rewrite E. set (a1 := dotf D m1 x). set (a2 := dotf D m2 x).
    assert (Q := quad_over_linear l (k1 * a1) (k2 * a2) k1 k2 Hl Hk1 Hk2). fold k in Q.
    replace ((k1 * a1) ^ 2 / k1) with (k1 * a1 ^ 2) in Q by (field; lra).
    replace ((k2 * a2) ^ 2 / k2) with (k2 * a2 ^ 2) in Q by (field; lra).
    assert (C := convex_pos l (quad D P1 x) (quad D P2 x) Hl (A1 x Hnz) (A2 x Hnz)).
    replace (- k * (((1 - l) * (k1 * a1) + l * (k2 * a2)) / k) ^ 2) with
      (- (((1 - l) * (k1 * a1) + l * (k2 * a2)) ^ 2 / k)) by (field; lra).
    lra.
Qed.

(** ** Updates *)
Section NwUpdate.
  Variables (D : nat) (prior post : nw_par) (data : wdata).
  Hypotheses (Op : nw_ok D prior) (Oq : nw_ok D post) (Hx : frames_of_dim D data) (Hw : nonneg_weights data).
  Let st := wstats (D + (D * D + 2)) nl_suff_stats data.

  (** The full step *)
  Lemma nw_full : exists full np, nw_nat prior = Ok np /\ nw_from_nat (vadd np st) = Ok full /\ nw_ok D full /\
    nw_nat full = Ok (vadd np st) /\ length np = (D + (D * D + 2))%nat /\
    nw_scale full = nw_scale prior + Nw data /\ nw_dof full = nw_dof prior + Nw data /\
    nw_mean full = map (dmean (vf (nw_mean prior)) (nw_scale prior) data) (seq 0 D) /\
    (forall P, is_inverse D (mget (nw_W prior)) P ->
       is_inverse D (mget (nw_W full)) (dprec (vf (nw_mean prior)) (nw_scale prior) P data)).
  Proof.
    assert (N0 := Nw_nonneg data Hw). assert (Op' := Op). destruct Op' as (O1 & O2 & O3 & O4 & O5).
    destruct (nw_ok_npar D prior Op) as (np & P & E & HP & HI & Hn).
    assert (Hk : nw_scale prior + Nw data <> 0) by lra.
    assert (Hd := npar_data D np _ _ _ _ data Hn Hx Hk). fold st in Hd.
    destruct (npar_std D _ _ _ _ _ Hd) as (full & F1 & F2 & F3 & F4 & F5 & F6 & F7); [lra| |lra|].
    { apply posdef_dprec; auto. }
    exists full, np. assert (Ln : length np = (D + (D * D + 2))%nat) by (destruct Hn; auto).
    split; [auto|]. split; [auto|]. split; [auto|]. split; [auto|]. split; [auto|]. split; [auto|]. split; [auto|]. split; [auto|].
    intros P' HP'. eapply is_inverse_ext; [apply meq_refl| |exact F7].
    assert (EP : meq D P P') by (eapply inverse_unique; [apply HI|apply HP']).
    intros i j Hi Hj. unfold dprec. rewrite EP by auto. reflexivity.
  Qed.

  Lemma st_length : length st = (D + (D * D + 2))%nat.
  Proof. destruct (nl_wstats D data Hx) as (A & _). exact A. Qed.

  Lemma nw_update_full : forall np, nw_nat prior = Ok np ->
    nw_update 1 prior post st = nw_from_nat (vadd np st).
  Proof.
    intros np E. unfold nw_update. rewrite E. cbn [bindr].
    destruct (nw_ok_npar D post Oq) as (nq & Q & -> & _ & _ & Hn). cbn [bindr]. f_equal.
    destruct (nw_ok_npar D prior Op) as (np' & P & E' & _ & _ & Hp).
    assert (np' = np) by congruence. subst np'. destruct Hn as (Ln & _), Hp as (Lp & _).
    assert (Ls := st_length). assert (La : length (vadd np st) = (D + (D * D + 2))%nat) by (rewrite vadd_length; congruence).
    apply vec_ext; [rewrite vlin_length; congruence|]. rewrite vlin_length by congruence.
    intros k Hk. rewrite vlin_nth by (congruence || lia). ring.
  Qed.
End NwUpdate.

Lemma nw_mix D l p q np nq : nw_ok D p -> nw_ok D q -> 0 <= l <= 1 -> nw_nat p = Ok np -> nw_nat q = Ok nq ->
  exists r, nw_from_nat (vadd np (vscale l (vsub nq np))) = Ok r /\ nw_ok D r /\
    nw_nat r = Ok (vadd np (vscale l (vsub nq np))).
Proof.
  intros Op Oq Hl E1 E2.
  destruct (nw_ok_npar D p Op) as (np' & P & Ep & HP & _ & Hp).
  destruct (nw_ok_npar D q Oq) as (nq' & Q & Eq & HQ & _ & Hq).
  assert (np' = np) by congruence. assert (nq' = nq) by congruence. subst np' nq'.
  destruct Op as (_ & _ & _ & P4 & P5), Oq as (_ & _ & _ & Q4 & Q5).
  assert (Hk := convex_pos l _ _ Hl P4 Q4).
  assert (Hm := npar_mix D l np _ _ _ _ nq _ _ _ _ Hp Hq ltac:(lra)).
  destruct (npar_std D _ _ _ _ _ Hm) as (r & R1 & R2 & R3 & _); auto.
  - apply posdef_xprec; auto.
  - assert (C := convex_pos l (nw_dof p - (INR D - 1)) (nw_dof q - (INR D - 1)) Hl ltac:(lra) ltac:(lra)). lra.
  - exists r. auto.
Qed.

Lemma nw_step D lrate prior post data : nw_ok D prior -> nw_ok D post -> 0 <= lrate <= 1 ->
  frames_of_dim D data -> nonneg_weights data ->
  exists q, nw_update lrate prior post (wstats (D + (D * D + 2)) nl_suff_stats data) = Ok q /\ nw_ok D q.
Proof.
  intros Op Oq Hl Hx Hw. destruct (nw_full D prior data Op Hx Hw) as (full & np & E & F1 & F2 & F3 & _).
  destruct (nw_ok_npar D post Oq) as (nq & Q & Eq & _).
  destruct (nw_mix D lrate post full nq _ Oq F2 Hl Eq F3) as (r & R1 & R2 & _).
  exists r. split; [|auto]. unfold nw_update. rewrite E, Eq. cbn [bindr]. exact R1.
Qed.

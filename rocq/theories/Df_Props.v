(** Properties of the default parameters: C115 (Normal), C116 (unknown
    covariance types), C117 (NormalSet), C118 (Gamma), C119 (categoricals). *)
From Coq Require Import Reals String List Arith Bool Lia Lra Permutation.
From Verif Require Import Prelude Vec Gibbs Lgamma Dist_Model Dist_Spec Dist_Proofs NG_Proofs KL_Proofs Mat MatDet NW_Model NW_Spec LMat NW_Proofs NW_KL SB_Model SB_Proofs Set_Model Df_Model Df_Spec Df_Proofs.
Import ListNotations.
Local Open Scope R_scope.

(** ** C115: the model created from a mean and a covariance has them as its
    initial expected values, prior and posterior are equal and proper *)
Theorem C115_full_partial : forall D mean cov C s, (1 <= D)%nat -> length mean = D -> denotes D cov C ->
  ~ dimensionless cov -> posdef D C -> 0 < s ->
  exists p M, normal_create mean cov s "full" = Ok (Pfull {| bp_prior := p; bp_post := p |}) /\
  nw_ok D p /\ nw_scale p = s /\ nw_dof p = s + INR D - 1 /\
  normal_mean (Pfull {| bp_prior := p; bp_post := p |}) = mean /\
  normal_cov (Pfull {| bp_prior := p; bp_post := p |}) = Ok M /\ is_matrix D M C /\
  np_kl (Pfull {| bp_prior := p; bp_post := p |}) = Ok 0.
Proof.
  intros D mean cov C s HD Hm Hd Hn HC Hs.
  destruct (default_full_ok D mean cov C s HD Hm Hd Hn HC Hs) as (W & E & HW & PW & I1 & I2).
  assert (HI : 1 <= INR D) by (change 1 with (INR 1); now apply le_INR).
  set (p := {| nw_mean := mean; nw_scale := s; nw_W := W; nw_dof := s + INR D - 1 |}) in *.
  assert (O : nw_ok D p) by (unfold nw_ok, p; cbn; repeat (split; auto); lra).
  exists p, (mk D C). split; [exact E|]. split; [exact O|]. split; [reflexivity|]. split; [reflexivity|].
  split; [reflexivity|]. split; [|split].
  - unfold normal_cov, np_value. cbn [snd bp_post nw_mean_precision]. unfold nw_mean_precision. cbn [snd].
    apply t_inverse_ok.
    + now apply lmscale_is_mat.
    + eapply is_inverse_ext; [|apply meq_refl|apply is_inverse_sym, I1].
      intros i j Hi Hj. now rewrite lmscale_get.
  - split; [apply is_mat_mk|apply mk_meq].
  - cbn [np_kl bp_post bp_prior]. now apply (nw_kl_self D).
Qed.

Theorem C115_diagonal_partial : forall D mean cov C s, length mean = D -> denotes D cov C ->
  ~ dimensionless cov -> (forall i, (i < D)%nat -> 0 < C i i) -> 0 < s ->
  exists p M, normal_create mean cov s "diagonal" = Ok (Pdiag {| bp_prior := p; bp_post := p |}) /\
  ng_ok D p /\ ng_scale p = s /\ ng_shape p = s /\
  normal_mean (Pdiag {| bp_prior := p; bp_post := p |}) = mean /\
  normal_cov (Pdiag {| bp_prior := p; bp_post := p |}) = Ok M /\
  is_matrix D M (fun i j => if Nat.eqb i j then C i i else 0) /\
  np_kl (Pdiag {| bp_prior := p; bp_post := p |}) = Ok 0.
Proof.
  intros D mean cov C s Hm Hd Hn HC Hs. assert (E := default_diag_ok D mean cov C s Hm Hd Hn). cbv zeta in E.
  assert (O := ng_default_ok D mean C s Hm Hs HC).
  set (p := {| ng_mean := mean; ng_scale := s; ng_shape := s; ng_rates := map (fun i => s * C i i) (seq 0 D) |}) in *.
  destruct (diag_cov_ok D mean C s Hm Hs HC p) as (M & EM & HM).
  exists p, M. split; [exact E|]. split; [exact O|]. split; [reflexivity|]. split; [reflexivity|].
  split; [reflexivity|]. split; [exact EM|]. split; [exact HM|].
  cbn [np_kl bp_post bp_prior]. f_equal.
  replace p with {| ng_mean := ng_mean p; ng_scale := ng_scale p; ng_shape := ng_shape p; ng_rates := ng_rates p |} at 1 by reflexivity.
  rewrite (ng_kl_moved D p) by (auto; apply O). rewrite bsum_zero; [ring|]. intros i Hi. ring.
Qed.

(** isotropic: the largest of the variances *)
Theorem C115_isotropic_partial : forall D mean cov C s, (1 <= D)%nat -> length mean = D -> denotes D cov C ->
  ~ dimensionless cov -> (exists i, (i < D)%nat /\ 0 < C i i) -> 0 < s ->
  exists p M v, normal_create mean cov s "isotropic" = Ok (Piso {| bp_prior := p; bp_post := p |}) /\
  ig_ok D p /\ ig_scale p = s /\ ig_shape p = s /\
  normal_mean (Piso {| bp_prior := p; bp_post := p |}) = mean /\
  is_max_diag D C v /\
  normal_cov (Piso {| bp_prior := p; bp_post := p |}) = Ok M /\
  is_matrix D M (fun i j => if Nat.eqb i j then v else 0) /\
  np_kl (Piso {| bp_prior := p; bp_post := p |}) = Ok 0.
Proof.
  intros D mean cov C s HD Hm Hd Hn (i0 & Hi0 & HC) Hs.
  destruct (default_iso_ok D mean cov C s HD Hm Hd Hn) as (v & HV & E). cbv zeta in E.
  assert (Hv : 0 < v) by (destruct HV as (_ & HV); specialize (HV i0 Hi0); lra).
  set (p := {| ig_mean := mean; ig_scale := s; ig_shape := s; ig_rate := s * v |}) in *.
  assert (O : ig_ok D p).
  { unfold ig_ok, p. cbn. split; [auto|]. split; [auto|]. split; [auto|]. now apply Rmult_lt_0_compat. }
  exists p, (lmscale (1 / (s / (s * v))) (eye D)), v. split; [exact E|]. split; [exact O|]. split; [reflexivity|].
  split; [reflexivity|]. split; [reflexivity|]. split; [exact HV|]. split; [|split].
  - unfold normal_cov, normal_mean, np_value. cbn [fst snd bp_post]. unfold ig_mean_precision, p.
    cbn [fst snd ig_mean ig_shape ig_rate]. now rewrite Hm.
  - replace (1 / (s / (s * v))) with v by (field; lra). apply scalar_eye.
  - cbn [np_kl bp_post bp_prior]. f_equal.
    replace p with {| ig_mean := ig_mean p; ig_scale := ig_scale p; ig_shape := ig_shape p; ig_rate := ig_rate p |} at 1 by reflexivity.
    rewrite (ig_kl_moved D p) by (auto; apply O). rewrite bsum_zero; [ring|]. intros i Hi. ring.
Qed.

(** A scalar given as a tensor without dimension is refused, although it is
    documented: for every kind of covariance. *)
Theorem C115_scalar_refuted : forall mean c s cov_type,
  In cov_type ["full"%string; "diagonal"%string; "isotropic"%string] ->
  normal_create mean (T0 c) s cov_type = Err RuntimeError.
Proof. intros mean c s t [<-|[<-|[<-|[]]]]; reflexivity. Qed.

(** A tensor of 1 element for a scalar in two dimensions. *)
Example C115_ex : normal_create [1; 2] (T1 [4]) 3 "diagonal" =
  Ok (Pdiag (let p := {| ng_mean := [1; 2]; ng_scale := 3; ng_shape := 3; ng_rates := [12; 12] |} in
             {| bp_prior := p; bp_post := p |})).
Proof.
  destruct (full_cov_ok 2 (T1 [4]) _ (dn_scalar1 2 4)) as (M & E & HM); [intros (c & H); discriminate|].
  assert (K := default_diag_ok 2 [1; 2] (T1 [4]) _ 3 eq_refl (dn_scalar1 2 4)). cbv zeta in K.
  unfold normal_create. cbn [str_in index prefix negb String.eqb Ascii.eqb Bool.eqb].
  change (default_diag [1; 2] (T1 [4]) 3 = Ok (Pdiag (let p := {| ng_mean := [1; 2]; ng_scale := 3; ng_shape := 3; ng_rates := [12; 12] |} in
             {| bp_prior := p; bp_post := p |}))).
  rewrite K by (intros (c & H); discriminate). cbn [seq map Nat.eqb]. replace (3 * 4) with 12 by ring. reflexivity.
Qed.

Example C115_ex_iso : normal_create [1; 2] (T1 [4; 9]) 2 "isotropic" =
  Ok (Piso (let p := {| ig_mean := [1; 2]; ig_scale := 2; ig_shape := 2; ig_rate := 18 |} in
            {| bp_prior := p; bp_post := p |})).
Proof.
  change (default_iso [1; 2] (T1 [4; 9]) 2 = Ok (Piso (let p := {| ig_mean := [1; 2]; ig_scale := 2; ig_shape := 2; ig_rate := 18 |} in
            {| bp_prior := p; bp_post := p |}))).
  destruct (default_iso_ok 2 [1; 2] (T1 [4; 9]) _ 2 ltac:(lia) eq_refl (dn_diag 2 [4; 9] eq_refl)) as (v & ((i & Hi & Hv) & HV) & E);
    [intros (c & H); discriminate|].
  rewrite E. assert (V0 := HV 0%nat ltac:(lia)). assert (V1 := HV 1%nat ltac:(lia)). cbn in V0, V1.
  assert (v = 9). { rewrite Nat.eqb_refl in Hv. destruct i as [|[|i]]; [cbn in Hv; lra|exact Hv|lia]. }
  rewrite H. cbv zeta. replace (2 * 9) with 18 by ring. reflexivity.
Qed.

(** ** C116: unknown covariance types *)
Lemma str_in_refl s : str_in s s = true.
Proof.
  unfold str_in. destruct s as [|a s]; [reflexivity|]. cbn [index].
  assert (H : prefix (String a s) (String a s) = true).
  { set (t := String a s). clearbody t. induction t as [|b t IH]; [reflexivity|]. cbn. destruct (Ascii.ascii_dec b b); [exact IH|congruence]. }
  now rewrite H.
Qed.

Definition known_type (t : string) : Prop := t = "full"%string \/ t = "diagonal"%string \/ t = "isotropic"%string.

Lemma normal_create_cases mean cov s t : ~ known_type t -> normal_create mean cov s t = Err KeyError.
Proof.
  intros H. unfold normal_create. rewrite str_in_refl. cbn [negb].
  destruct (String.eqb_spec t "full") as [->|_]; [exfalso; apply H; now left|].
  destruct (String.eqb_spec t "diagonal") as [->|_]; [exfalso; apply H; right; now left|].
  destruct (String.eqb_spec t "isotropic") as [->|_]; [exfalso; apply H; right; now right|]. reflexivity.
Qed.

(** The test is [cov_type not in cov_type]: the exception UnknownCovarianceType
    (OtherError) is never raised; an unknown type gives a KeyError. *)
Theorem C116_unknown_type_refuted : forall mean cov noise s sd t, ~ known_type t ->
  normal_create mean cov s t = Err KeyError /\
  normalset_create mean cov noise s sd t = Err KeyError.
Proof.
  intros mean cov noise s sd t H. split; [now apply normal_create_cases|].
  unfold normalset_create. rewrite str_in_refl. cbn [negb].
  destruct (String.eqb_spec t "full") as [->|_]; [exfalso; apply H; now left|].
  destruct (String.eqb_spec t "diagonal") as [->|_]; [exfalso; apply H; right; now left|].
  destruct (String.eqb_spec t "isotropic") as [->|_]; [exfalso; apply H; right; now right|]. reflexivity.
Qed.

(** What holds: an unknown type is refused (by some exception), a known one
    never gives a KeyError. *)
Theorem C116_types_partial : forall mean cov s t,
  (~ known_type t -> exists e, normal_create mean cov s t = Err e) /\
  (known_type t -> normal_create mean cov s t <> Err KeyError).
Proof.
  intros mean cov s t. split.
  - intros H. exists KeyError. now apply normal_create_cases.
  - intros [->|[->| ->]]; unfold normal_create; cbn [negb str_in index prefix].
    + change (default_full mean cov s <> Err KeyError). unfold default_full, t_inv.
      destruct (full_cov cov (length mean)); cbn; try discriminate.
      unfold t_inverse. destruct (forallb _ m); cbn; [|discriminate]. destruct (minv _ _); cbn; discriminate.
    + change (default_diag mean cov s <> Err KeyError). unfold default_diag, t_diag.
      destruct (full_cov cov (length mean)); cbn; discriminate.
    + change (default_iso mean cov s <> Err KeyError). unfold default_iso, t_diag.
      destruct (full_cov cov (length mean)); cbn [bindr]; try discriminate.
      unfold t_max. destruct (map _ _); cbn; discriminate.
Qed.

(** The isotropic type takes the largest variance: there is none in dimension
    zero. *)
Theorem C116_isotropic_empty : forall s, normal_create [] (T1 []) s "isotropic" = Err RuntimeError.
Proof. reflexivity. Qed.

Example C116_ex : normal_create [0] (T1 [1]) 1 "diag" = Err KeyError.
Proof. apply normal_create_cases. intros [H|[H|H]]; discriminate. Qed.

(** ** C117: sets of Normal models *)

(** The components have the prior of the single model; the posterior means are
    moved by the noise (in units of the standard deviations), and nothing else
    is changed; the divergence from the prior is the one of the noise. *)
Theorem C117_full : forall D mean cov C s sd noise, (1 <= D)%nat -> length mean = D -> denotes D cov C ->
  ~ dimensionless cov -> posdef D C -> 0 < s -> Forall (fun e => length e = D) noise ->
  exists p qs, normal_create mean cov s "full" = Ok (Pfull {| bp_prior := p; bp_post := p |}) /\
  normalset_create mean cov noise s sd "full" = Ok (map (fun q => Pfull {| bp_prior := p; bp_post := q |}) qs) /\
  Forall2 (fun eps q => nw_ok D q /\ nw_scale q = nw_scale p /\ nw_W q = nw_W p /\ nw_dof q = nw_dof p /\
    (forall i, (i < D)%nat -> nth i (nw_mean q) 0 = nth i mean 0 + sd * sqrt (C i i) * nth i eps 0) /\
    exists P, is_inverse D C P /\
    np_kl (Pfull {| bp_prior := p; bp_post := q |}) =
      Ok (s / 2 * quad D P (fun i => sd * sqrt (C i i) * nth i eps 0))) noise qs.
Proof.
  intros D mean cov C s sd noise HD Hm Hd Hn HC Hs Hnoise.
  destruct (default_full_ok D mean cov C s HD Hm Hd Hn HC Hs) as (W & E & HW & PW & I1 & I2).
  assert (HI : 1 <= INR D) by (change 1 with (INR 1); now apply le_INR).
  set (p := {| nw_mean := mean; nw_scale := s; nw_W := W; nw_dof := s + INR D - 1 |}) in *.
  set (mv := fun eps => noisy_mean sd (map (fun i => C i i) (seq 0 D)) mean eps).
  set (q := fun eps => {| nw_mean := mv eps; nw_scale := s; nw_W := W; nw_dof := s + INR D - 1 |}).
  assert (O : nw_ok D p) by (unfold nw_ok, p; cbn; repeat (split; auto); lra).
  exists p, (map q noise). split; [exact E|]. split.
  - change (set_default default_full mean cov noise s sd = Ok (map (fun q => Pfull {| bp_prior := p; bp_post := q |}) (map q noise))).
    rewrite (set_default_ok default_full D mean cov C noise s sd _ Hm Hd Hn E). f_equal.
    rewrite map_map. reflexivity.
  - clear E. induction Hnoise as [|e noise He Hnoise IH]; [constructor|]. cbn [map]. constructor; [|exact IH].
    assert (Lm : length (mv e) = D) by (apply noisy_mean_length; auto).
    assert (Nm : forall i, (i < D)%nat -> nth i (mv e) 0 = nth i mean 0 + sd * sqrt (C i i) * nth i e 0).
    { intros i Hi. now apply (noisy_mean_nth D). }
    split; [unfold nw_ok, q; cbn; repeat (split; auto); lra|]. split; [reflexivity|]. split; [reflexivity|].
    split; [reflexivity|]. split; [exact Nm|].
    exists (fun i j => (s + INR D - 1) * mget W i j). split; [exact I1|].
    cbn [np_kl bp_post bp_prior].
    change (q e) with {| nw_mean := mv e; nw_scale := nw_scale p; nw_W := nw_W p; nw_dof := nw_dof p |}.
    rewrite (nw_kl_moved D p (mv e) O Lm). cbn [nw_scale nw_dof nw_W nw_mean p]. f_equal.
    replace (1/2 * s) with (s / 2) by field. f_equal. unfold quad, dotf. apply bsum_ext. intros i Hi.
    rewrite Nm by auto. f_equal; [ring|]. unfold mvm. apply bsum_ext. intros j Hj. rewrite Nm by auto. ring.
Qed.

Theorem C117_diagonal : forall D mean cov C s sd noise, length mean = D -> denotes D cov C ->
  ~ dimensionless cov -> (forall i, (i < D)%nat -> 0 < C i i) -> 0 < s -> Forall (fun e => length e = D) noise ->
  exists p qs, normal_create mean cov s "diagonal" = Ok (Pdiag {| bp_prior := p; bp_post := p |}) /\
  normalset_create mean cov noise s sd "diagonal" = Ok (map (fun q => Pdiag {| bp_prior := p; bp_post := q |}) qs) /\
  Forall2 (fun eps q => ng_ok D q /\ ng_scale q = ng_scale p /\ ng_shape q = ng_shape p /\ ng_rates q = ng_rates p /\
    (forall i, (i < D)%nat -> nth i (ng_mean q) 0 = nth i mean 0 + sd * sqrt (C i i) * nth i eps 0) /\
    np_kl (Pdiag {| bp_prior := p; bp_post := q |}) =
      Ok (s / 2 * sd ^ 2 * bsum D (fun i => (nth i eps 0) ^ 2))) noise qs.
Proof.
  intros D mean cov C s sd noise Hm Hd Hn HC Hs Hnoise.
  assert (E := default_diag_ok D mean cov C s Hm Hd Hn). cbv zeta in E.
  assert (O := ng_default_ok D mean C s Hm Hs HC).
  set (p := {| ng_mean := mean; ng_scale := s; ng_shape := s; ng_rates := map (fun i => s * C i i) (seq 0 D) |}) in *.
  set (mv := fun eps => noisy_mean sd (map (fun i => C i i) (seq 0 D)) mean eps).
  set (q := fun eps => {| ng_mean := mv eps; ng_scale := s; ng_shape := s; ng_rates := ng_rates p |}).
  exists p, (map q noise). split; [exact E|]. split.
  - change (set_default default_diag mean cov noise s sd = Ok (map (fun q => Pdiag {| bp_prior := p; bp_post := q |}) (map q noise))).
    rewrite (set_default_ok default_diag D mean cov C noise s sd _ Hm Hd Hn E). f_equal.
    rewrite map_map. reflexivity.
  - clear E. induction Hnoise as [|e noise He Hnoise IH]; [constructor|]. cbn [map]. constructor; [|exact IH].
    assert (Lm : length (mv e) = D) by (apply noisy_mean_length; auto).
    assert (Nm : forall i, (i < D)%nat -> nth i (mv e) 0 = nth i mean 0 + sd * sqrt (C i i) * nth i e 0).
    { intros i Hi. now apply (noisy_mean_nth D). }
    split; [destruct O as (O1 & O2 & O3 & O4 & O5); exact (conj Lm (conj O2 (conj O3 (conj O4 O5))))|]. split; [reflexivity|]. split; [reflexivity|].
    split; [reflexivity|]. split; [exact Nm|].
    cbn [np_kl bp_post bp_prior].
    change (q e) with {| ng_mean := mv e; ng_scale := ng_scale p; ng_shape := ng_shape p; ng_rates := ng_rates p |}.
    rewrite (ng_kl_moved D p (mv e) O Lm). cbn [ng_scale ng_shape ng_rates ng_mean p]. f_equal.
    rewrite <- !bsum_scal. apply bsum_ext. intros i Hi.
    rewrite Nm, LMat.map_seq_nth by auto. specialize (HC i Hi).
    replace (nth i mean 0 + sd * sqrt (C i i) * nth i e 0 - nth i mean 0) with (sd * sqrt (C i i) * nth i e 0) by ring.
    replace ((sd * sqrt (C i i) * nth i e 0) ^ 2) with (sd ^ 2 * (sqrt (C i i) * sqrt (C i i)) * nth i e 0 ^ 2) by ring.
    rewrite sqrt_sqrt by lra. field. lra.
Qed.

Theorem C117_isotropic : forall D mean cov C s sd noise, (1 <= D)%nat -> length mean = D -> denotes D cov C ->
  ~ dimensionless cov -> (forall i, (i < D)%nat -> 0 < C i i) -> 0 < s -> Forall (fun e => length e = D) noise ->
  exists p qs v, normal_create mean cov s "isotropic" = Ok (Piso {| bp_prior := p; bp_post := p |}) /\
  normalset_create mean cov noise s sd "isotropic" = Ok (map (fun q => Piso {| bp_prior := p; bp_post := q |}) qs) /\
  is_max_diag D C v /\
  Forall2 (fun eps q => ig_ok D q /\ ig_scale q = ig_scale p /\ ig_shape q = ig_shape p /\ ig_rate q = ig_rate p /\
    (forall i, (i < D)%nat -> nth i (ig_mean q) 0 = nth i mean 0 + sd * sqrt (C i i) * nth i eps 0) /\
    np_kl (Piso {| bp_prior := p; bp_post := q |}) =
      Ok (s / 2 * sd ^ 2 * bsum D (fun i => C i i / v * (nth i eps 0) ^ 2))) noise qs.
Proof.
  intros D mean cov C s sd noise HD Hm Hd Hn HC Hs Hnoise.
  destruct (default_iso_ok D mean cov C s HD Hm Hd Hn) as (v & HV & E). cbv zeta in E.
  assert (Hv : 0 < v) by (destruct HV as (_ & HV); specialize (HV 0%nat HD); specialize (HC 0%nat HD); lra).
  set (p := {| ig_mean := mean; ig_scale := s; ig_shape := s; ig_rate := s * v |}) in *.
  set (mv := fun eps => noisy_mean sd (map (fun i => C i i) (seq 0 D)) mean eps).
  set (q := fun eps => {| ig_mean := mv eps; ig_scale := s; ig_shape := s; ig_rate := s * v |}).
  assert (Hsv : 0 < s * v) by now apply Rmult_lt_0_compat.
  assert (O : ig_ok D p) by exact (conj Hm (conj Hs (conj Hs Hsv))).
  exists p, (map q noise), v. split; [exact E|]. split; [|split; [exact HV|]].
  - change (set_default default_iso mean cov noise s sd = Ok (map (fun q => Piso {| bp_prior := p; bp_post := q |}) (map q noise))).
    rewrite (set_default_ok default_iso D mean cov C noise s sd _ Hm Hd Hn E). f_equal.
    rewrite map_map. reflexivity.
  - clear E. induction Hnoise as [|e noise He Hnoise IH]; [constructor|]. cbn [map]. constructor; [|exact IH].
    assert (Lm : length (mv e) = D) by (apply noisy_mean_length; auto).
    assert (Nm : forall i, (i < D)%nat -> nth i (mv e) 0 = nth i mean 0 + sd * sqrt (C i i) * nth i e 0).
    { intros i Hi. now apply (noisy_mean_nth D). }
    split; [exact (conj Lm (conj Hs (conj Hs Hsv)))|]. split; [reflexivity|]. split; [reflexivity|].
    split; [reflexivity|]. split; [exact Nm|].
    cbn [np_kl bp_post bp_prior].
    change (q e) with {| ig_mean := mv e; ig_scale := ig_scale p; ig_shape := ig_shape p; ig_rate := ig_rate p |}.
    rewrite (ig_kl_moved D p (mv e) O Lm). cbn [ig_scale ig_shape ig_rate ig_mean p]. f_equal.
    rewrite <- !bsum_scal. apply bsum_ext. intros i Hi.
    rewrite Nm by auto. specialize (HC i Hi).
    replace (nth i mean 0 + sd * sqrt (C i i) * nth i e 0 - nth i mean 0) with (sd * sqrt (C i i) * nth i e 0) by ring.
    replace ((sd * sqrt (C i i) * nth i e 0) ^ 2) with (sd ^ 2 * (sqrt (C i i) * sqrt (C i i)) * nth i e 0 ^ 2) by ring.
    rewrite sqrt_sqrt by lra. field. lra.
Qed.

(** two components in one dimension, one of them moved by two standard deviations *)
Example C117_ex : normalset_create [5] (T1 [9]) [[0]; [2]] 1 1 "diagonal" =
  Ok (let p := {| ng_mean := [5]; ng_scale := 1; ng_shape := 1; ng_rates := [9] |} in
      [Pdiag {| bp_prior := p; bp_post := p |};
       Pdiag {| bp_prior := p; bp_post := {| ng_mean := [11]; ng_scale := 1; ng_shape := 1; ng_rates := [9] |} |}]).
Proof.
  change (set_default default_diag [5] (T1 [9]) [[0]; [2]] 1 1 =
  Ok (let p := {| ng_mean := [5]; ng_scale := 1; ng_shape := 1; ng_rates := [9] |} in
      [Pdiag {| bp_prior := p; bp_post := p |};
       Pdiag {| bp_prior := p; bp_post := {| ng_mean := [11]; ng_scale := 1; ng_shape := 1; ng_rates := [9] |} |}])).
  rewrite (set_default_ok default_diag 1 [5] (T1 [9]) _ [[0]; [2]] 1 1 _ eq_refl (dn_scalar1 1 9)
    ltac:(intros (c & H); discriminate) (default_diag_ok 1 [5] (T1 [9]) _ 1 eq_refl (dn_scalar1 1 9) ltac:(intros (c & H); discriminate))).
  assert (S9 : sqrt 9 = 3) by (replace 9 with (3 * 3) by ring; apply sqrt_square; lra).
  cbn [map seq Nat.eqb with_mean bp_prior bp_post ng_scale ng_shape ng_rates noisy_mean map2 vadd].
  unfold noisy_mean, vadd. cbn [map2]. rewrite S9.
  replace (1 * 9) with 9 by ring. replace (5 + 0 * 1 * 3) with 5 by ring. replace (5 + 2 * 1 * 3) with 11 by ring.
  reflexivity.
Qed.

(** ** C118: the Gamma model *)
Theorem C118_create_partial : forall D mean shape s, length mean = D -> length shape = D ->
  Forall (fun x => 0 < x) mean -> Forall (fun x => 0 < x) shape -> 0 < s ->
  let m := gamma_create mean shape s in
  gamma_ok D (gm_prior m) /\ gm_post m = gm_prior m /\ gm_mean m = mean.
Proof.
  intros D mean shape s Hm Hs Pm Ps H m.
  assert (L : length (map2 Rdiv shape mean) = D) by (rewrite map2_length; lia).
  assert (Q : forall i, (i < D)%nat -> 0 < nth i mean 0 /\ 0 < nth i shape 0).
  { intros i Hi. split; apply Forall_pos_nth; auto; lia. }
  split; [|split; [reflexivity|]].
  - unfold gamma_ok, m, gamma_create, default_rate. cbn [gm_prior g_shape g_rate]. rewrite !map_length.
    split; [exact L|]. split; [exact L|]. split.
    + apply Forall_forall. intros x Hx. apply in_map_iff in Hx. destruct Hx as (y & <- & _). exact H.
    + apply Forall_forall. intros x Hx. apply in_map_iff in Hx. destruct Hx as (y & <- & Hy).
      apply (In_nth _ _ 0) in Hy. destruct Hy as (i & Hi & <-). rewrite L in Hi.
      rewrite map2_nth_R by lia. destruct (Q i Hi). apply Rdiv_lt_0_compat; auto. now apply Rdiv_lt_0_compat.
  - unfold gm_mean, gamma_mean, m, gamma_create, default_rate. cbn [gm_shape gm_post g_shape g_rate].
    assert (L2 : length (map2 Rdiv (map (fun _ : R => s) (map2 Rdiv shape mean)) (map (fun x => s / x) (map2 Rdiv shape mean))) = D)
      by (rewrite map2_length, !map_length; lia).
    apply vec_ext; [rewrite map2_length; lia|]. intros i Hi. rewrite map2_length in Hi.
    rewrite map2_nth_R by lia. rewrite map2_nth_R by (rewrite map_length; lia).
    rewrite !map_nth_R by lia. rewrite map2_nth_R by lia.
    destruct (Q i) as (Q1 & Q2); [lia|]. field. repeat split; lra.
Qed.

(** The expected log-likelihood can not be computed: for every model and every
    frame a RuntimeError (shapes that do not match). *)
Theorem C118_llh_refuted : forall D m x, (1 <= D)%nat -> length (gm_shape m) = D ->
  length (g_shape (gm_post m)) = D -> length (g_rate (gm_post m)) = D -> length x = D ->
  gm_ellh m (gamma_suff_stats x) = Err RuntimeError.
Proof.
  intros D m x HD H1 H2 H3 Hx. unfold gm_ellh.
  assert (L : length (gamma_ess (gm_post m)) = (2 * D)%nat) by now apply gamma_ess_length.
  rewrite skipn_all. unfold bcast at 1. rewrite H1. cbn [length].
  replace (Nat.eqb D 0) with false by (symmetry; apply Nat.eqb_neq; lia).
  destruct (gm_shape m) as [|a [|b l]] eqn:E; [simpl in H1; lia| |reflexivity].
  cbn [bindr map bcast length Nat.eqb]. unfold gl_call. rewrite L.
  replace (length (gamma_suff_stats x)) with (2 * D + 1)%nat
    by (unfold gamma_suff_stats; rewrite !app_length, !map_length; cbn; lia).
  replace (Nat.eqb (2 * D + 1) (2 * D)) with false by (symmetry; apply Nat.eqb_neq; lia). reflexivity.
Qed.

Lemma gm_frame D m x : length (gm_shape m) = D -> length x = D ->
  gm_frame_stats m (gamma_suff_stats x) = x ++ gm_shape m.
Proof.
  intros H1 H2. unfold gm_frame_stats.
  replace (length (gamma_suff_stats x) / 2)%nat with D.
  2:{ unfold gamma_suff_stats. rewrite !app_length, !map_length, H2. cbn [length].
      replace (D + (D + 1))%nat with (1 + D * 2)%nat by lia. rewrite Nat.div_add by lia. reflexivity. }
  f_equal. unfold gamma_suff_stats. rewrite firstn_app, map_length, H2, Nat.sub_diag. cbn [firstn].
  rewrite app_nil_r, firstn_all2 by (rewrite map_length; lia). rewrite map_map.
  rewrite <- (map_id x) at 2. apply map_ext. intros; apply Ropp_involutive.
Qed.

(** The update: the shapes are those of the textbook posterior
    Gamma(a + N shape, b + sum x), the rates have the data with the wrong sign. *)
Theorem C118_update_partial : forall D m xs k, length (gm_shape m) = D ->
  length (g_shape (gm_prior m)) = D -> length (g_rate (gm_prior m)) = D ->
  length (g_shape (gm_post m)) = D -> length (g_rate (gm_post m)) = D ->
  Forall (fun x => length x = D) xs -> (k < D)%nat ->
  let q := gm_update 1 m (gm_accumulate m (map gamma_suff_stats xs)) in
  nth k (g_shape q) 0 = nth k (g_shape (gm_prior m)) 0 + INR (length xs) * nth k (gm_shape m) 0 /\
  nth k (g_rate q) 0 = nth k (g_rate (gm_prior m)) 0 - sumf (fun x => nth k x 0) xs.
Proof.
  intros D m xs k H1 P1 P2 Q1 Q2 Hx Hk q.
  assert (Em : map (gm_frame_stats m) (map gamma_suff_stats xs) = map (fun x => x ++ gm_shape m) xs).
  { rewrite map_map. apply map_ext_in. intros x Hin. rewrite Forall_forall in Hx. now apply (gm_frame D); auto. }
  assert (Hr : Forall (fun r => length r = (2 * D)%nat) (map (fun x => x ++ gm_shape m) xs)).
  { apply Forall_forall. intros r Hin. apply in_map_iff in Hin. destruct Hin as (x & <- & Hin).
    rewrite Forall_forall in Hx. rewrite app_length, (Hx x Hin), H1. lia. }
  assert (Es : gm_accumulate m (map gamma_suff_stats xs) = colsum (2 * D) (map (fun x => x ++ gm_shape m) xs)).
  { unfold gm_accumulate. now rewrite Em, H1. }
  destruct (gamma_step_spec D 1 (gm_prior m) (gm_post m) (gm_accumulate m (map gamma_suff_stats xs)) P1 P2 Q1 Q2) as (_ & _ & A & B).
  { rewrite Es. now apply colsum_length. }
  unfold q, gm_update. rewrite A, B by auto. rewrite Es, !colsum_nth by (auto; lia). rewrite !sumf_map.
  rewrite (sumf_ext (fun x => nth (D + k) (x ++ gm_shape m) 0) (fun _ => nth k (gm_shape m) 0)).
  2:{ intros x Hin. rewrite Forall_forall in Hx. rewrite <- (Hx x Hin) at 1. apply nth_app_r. reflexivity. }
  rewrite (sumf_ext (fun x => nth k (x ++ gm_shape m) 0) (fun x => nth k x 0)).
  2:{ intros x Hin. rewrite Forall_forall in Hx. apply nth_app_l. rewrite (Hx x Hin). exact Hk. }
  rewrite sumf_const. split; ring.
Qed.

(** ... so with any positive data the rate is not the textbook one, *)
Theorem C118_update_refuted : forall D m xs k, length (gm_shape m) = D ->
  length (g_shape (gm_prior m)) = D -> length (g_rate (gm_prior m)) = D ->
  length (g_shape (gm_post m)) = D -> length (g_rate (gm_post m)) = D ->
  Forall (fun x => length x = D) xs -> Forall (Forall (fun v => 0 < v)) xs -> xs <> [] -> (k < D)%nat ->
  let q := gm_update 1 m (gm_accumulate m (map gamma_suff_stats xs)) in
  nth k (g_rate q) 0 <> nth k (g_rate (gm_prior m)) 0 + sumf (fun x => nth k x 0) xs.
Proof.
  intros D m xs k H1 P1 P2 Q1 Q2 Hx Hp Hne Hk q.
  destruct (C118_update_partial D m xs k H1 P1 P2 Q1 Q2 Hx Hk) as (_ & E). fold q in E. rewrite E.
  assert (0 < sumf (fun x => nth k x 0) xs); [|lra].
  destruct xs as [|x xs]; [congruence|]. rewrite Forall_forall in Hx, Hp.
  assert (P : forall y, In y (x :: xs) -> 0 < nth k y 0).
  { intros y Hy. apply Forall_pos_nth; [now apply Hp|]. now rewrite (Hx y Hy). }
  apply (sumf_pos _ _ x); [|now left|apply P; now left]. intros y Hy. apply Rlt_le. now apply P.
Qed.

(** ... and a single frame can make it negative. *)
Theorem C118_negative_rate_refuted : exists m x, m = gamma_create [2] [1] 1 /\ 0 < x /\
  let q := gm_update 1 m (gm_accumulate m [gamma_suff_stats [x]]) in
  nth 0 (g_rate q) 0 < 0.
Proof.
  exists (gamma_create [2] [1] 1), 3. split; [reflexivity|]. split; [lra|]. intros q.
  destruct (C118_update_partial 1 (gamma_create [2] [1] 1) [[3]] 0) as (_ & E); auto.
  fold q in E. cbn [map] in q. unfold q. cbn [map] in E. rewrite E. cbn. unfold sumf. cbn. lra.
Qed.

Example C118_ex : gm_accumulate (gamma_create [2] [1] 1) [gamma_suff_stats [3]; gamma_suff_stats [4]] = [7; 2].
Proof. unfold gm_accumulate. cbn. unfold vadd, vzeros. cbn. f_equal; [ring|]. f_equal. ring. Qed.

(** ** C119: categorical models and mixing weights *)
Theorem C119_categorical : forall d w s, length w = d -> (1 <= d)%nat -> Forall (fun x => 0 < x) w -> rsum w = 1 -> 0 < s ->
  dir_ok d (categorical_default w s) /\ dir_mean (categorical_default w s) = w /\
  rsum (categorical_default w s) = s.
Proof.
  intros d w s Hl Hd Hw Hs H.
  assert (E : rsum (categorical_default w s) = s).
  { unfold categorical_default. transitivity (rsum w * s); [|rewrite Hs; ring].
    clear. induction w as [|x w IH]; simpl; [ring|]. rewrite IH. ring. }
  split; [|split; [|exact E]].
  - split; [unfold categorical_default; now rewrite map_length|]. split; [lia|].
    unfold categorical_default. apply Forall_forall. intros x Hx. apply in_map_iff in Hx. destruct Hx as (y & <- & Hy).
    rewrite Forall_forall in Hw. apply Rmult_lt_0_compat; auto.
  - unfold dir_mean. rewrite E. unfold categorical_default. rewrite map_map. rewrite <- (map_id w) at 2.
    apply map_ext. intros x. field. lra.
Qed.

(** The default mixing weights are uniform and sum to one. *)
Theorem C119_uniform : forall n, (1 <= n)%nat -> length (uniform_weights n) = n /\ rsum (uniform_weights n) = 1 /\
  (forall k, (k < n)%nat -> nth k (uniform_weights n) 0 = / INR n) /\ Forall (fun x => 0 < x) (uniform_weights n).
Proof.
  intros n Hn. assert (Hp : 0 < INR n) by (apply lt_0_INR; lia).
  assert (E : uniform_weights n = repeat (/ INR n) n).
  { unfold uniform_weights. generalize (INR n) at 1 2 as c. intros c. induction n as [|n IH] in |- *; [reflexivity|]. simpl. rewrite IH.
    f_equal. unfold Rdiv. ring. }
  rewrite E. split; [apply repeat_length|]. split; [|split].
  - assert (G : forall c k, rsum (repeat c k) = INR k * c).
    { intros c k. induction k as [|k IH]; [simpl; ring|]. cbn [repeat rsum fold_right] in *. rewrite S_INR.
      unfold rsum in *. simpl. rewrite IH. ring. }
    rewrite G. field. lra.
  - intros k Hk. clear -Hk. generalize (/ INR n) as c. revert k Hk. induction n as [|n IH]; intros k Hk c; [lia|].
    destruct k as [|k]; [reflexivity|]. simpl. apply IH. lia.
  - apply Forall_forall. intros x Hx. apply repeat_spec in Hx. subst x. now apply Rinv_0_lt_compat.
Qed.

(** Stick-breaking default: geometric expected weights (eps: the machine
    epsilon the code adds to the denominators). *)
Theorem C119_sticks : forall n s eps k, 0 < s -> 0 <= eps -> (k < n)%nat ->
  nth k (sb_mean eps (seq 0 n) (sb_default n s)) 0 = / (1 + s + eps) * (s / (1 + s + eps)) ^ k.
Proof.
  intros n s eps k Hs He Hk.
  assert (L : length (sb_default n s) = n) by apply repeat_length.
  assert (N := sb_mean_nth n (seq 0 n) (sb_default n s) eps (Permutation_refl _) L k Hk).
  rewrite seq_nth in N by auto. simpl in N. rewrite N.
  assert (G : forall j, (j < n)%nat -> nth j (sb_default n s) (0, 0) = (1, s)).
  { unfold sb_default. clear. induction n as [|n IH]; intros j Hj; [lia|]. destruct j as [|j]; [reflexivity|]. simpl. apply IH. lia. }
  unfold sv, sa, sb. rewrite G by auto. cbn [fst snd]. replace (1 / (1 + s + eps)) with (/ (1 + s + eps)) by (unfold Rdiv; ring).
  f_equal.
  assert (F : forall j, (j <= n)%nat -> rprod (map (sr (sb_default n s) eps) (firstn j (seq 0 n))) = (s / (1 + s + eps)) ^ j).
  { intros j Hj. replace (firstn j (seq 0 n)) with (seq 0 j).
    - clear N. assert (H : forall a, (a + j <= n)%nat -> rprod (map (sr (sb_default n s) eps) (seq a j)) = (s / (1 + s + eps)) ^ j).
      { clear Hj. induction j as [|j IH]; intros a Ha; [reflexivity|]. cbn [seq map].
        change (sr (sb_default n s) eps a * rprod (map (sr (sb_default n s) eps) (seq (S a) j)) = (s / (1 + s + eps)) ^ S j).
        rewrite IH by lia. unfold sr, sa, sb. rewrite G by lia. reflexivity. }
      apply H. lia.
    - replace n with (j + (n - j))%nat by lia. rewrite seq_app, firstn_app, seq_length, Nat.sub_diag. cbn [firstn].
      rewrite app_nil_r, firstn_all2 by (rewrite seq_length; lia). reflexivity. }
  apply F. lia.
Qed.

Example C119_ex : categorical_default [1/4; 3/4] 8 = [2; 6].
Proof. unfold categorical_default. cbn. f_equal; [field|]. f_equal. field. Qed.

Print Assumptions C115_full_partial.
Print Assumptions C116_unknown_type_refuted.
Print Assumptions C117_full.
Print Assumptions C118_update_refuted.
Print Assumptions C119_sticks.
Print Assumptions C116_isotropic_empty.

From Coq Require Import Reals List Arith Lia Lra.
From Verif Require Import Prelude Vec Lgamma Gibbs Dist_Model Dist_Spec Dist_Proofs NG_Proofs KL_Proofs Dist_Props Ev_Model Ev_Spec.
Import ListNotations.
Local Open Scope R_scope.

Definition ones (rows : list (list R)) : wdata := map (fun x => (1, x)) rows.

Lemma vscale_1 v : vscale 1 v = v.
Proof. unfold vscale. rewrite <- (map_id v) at 2. apply map_ext. intros; ring. Qed.

Lemma colsum_wstats n (f : list R -> list R) rows : colsum n (map f rows) = wstats n f (ones rows).
Proof.
  unfold wstats, ones. rewrite map_map. f_equal. apply map_ext. intros x. cbn. now rewrite vscale_1.
Qed.

Lemma ones_nonneg rows : nonneg_weights (ones rows).
Proof. unfold nonneg_weights, ones. apply Forall_forall. intros gx H. apply in_map_iff in H. destruct H as (x & <- & _). cbn. lra. Qed.

Lemma ones_dim d rows : Forall (fun x => length x = d) rows -> frames_of_dim d (ones rows).
Proof.
  intros H. unfold frames_of_dim, ones. apply Forall_forall. intros gx Hg. apply in_map_iff in Hg.
  destruct Hg as (x & <- & Hx). cbn. exact (proj1 (Forall_forall _ _) H x Hx).
Qed.

Lemma rsum_dot_colsum n (f : list R -> list R) rows e : length e = n ->
  Forall (fun x => length (f x) = n) rows ->
  rsum (map (fun x => dot (f x) e) rows) = dot (colsum n (map f rows)) e.
Proof.
  intros He Hf.
  assert (Hr : Forall (fun r => length r = n) (map f rows)).
  { apply Forall_forall. intros r Hr. apply in_map_iff in Hr. destruct Hr as (x & <- & Hx).
    exact (proj1 (Forall_forall _ _) Hf x Hx). }
  rewrite dot_nth by (rewrite colsum_length; auto). rewrite colsum_length by auto.
  change (rsum (map (fun x => dot (f x) e) rows)) with (sumf (fun x => dot (f x) e) rows).
  rewrite (sumf_ext _ (fun x => sumf (fun k => nth k (f x) 0 * nth k e 0) (seq 0 n)) rows).
  2:{ intros x Hx. assert (E := proj1 (Forall_forall _ _) Hf x Hx). cbv beta in E.
      rewrite dot_nth by congruence. now rewrite E. }
  rewrite sumf_swap. apply sumf_ext. intros k Hk. apply in_seq in Hk.
  rewrite colsum_nth by (auto; lia). rewrite sumf_scal_r. f_equal.
  rewrite sumf_map. reflexivity.
Qed.

(** ** Any conjugate parameter *)
Section Conj.
  Context {P : Type}.
  Variables (nat_of ess : P -> list R) (log_norm : P -> R) (from_nat : list R -> P)
            (ok : P -> Prop) (N : nat) (f : list R -> list R) (row_ok : list R -> Prop).
  Hypothesis Hn : forall p, ok p -> length (nat_of p) = N.
  Hypothesis He : forall p, ok p -> length (ess p) = N.
  Hypothesis Hkl : forall p q, ok p -> ok q ->
    0 <= kl_div (nat_of p) (ess p) (nat_of q) (log_norm p) (log_norm q).
  Hypothesis Hfl : forall x, row_ok x -> length (f x) = N.

  Definition full (p : P) (rows : list (list R)) : P :=
    from_nat (vadd (nat_of p) (colsum N (map f rows))).

  Hypothesis Hfo : forall p rows, ok p -> Forall row_ok rows -> ok (full p rows).
  Hypothesis Hfn : forall p rows, ok p -> Forall row_ok rows ->
    nat_of (full p rows) = vadd (nat_of p) (colsum N (map f rows)).

  Lemma conj_stats_len rows : Forall row_ok rows -> length (colsum N (map f rows)) = N.
  Proof.
    intros H. apply colsum_length. apply Forall_forall. intros r Hr. apply in_map_iff in Hr.
    destruct Hr as (x & <- & Hx). apply Hfl. exact (proj1 (Forall_forall _ _) H x Hx).
  Qed.

  Lemma conj_full_step p q rows : ok p -> ok q -> Forall row_ok rows ->
    std_update nat_of from_nat 1 p q (colsum N (map f rows)) = full p rows.
  Proof.
    intros Op Oq Hr. unfold full. apply (gen_full nat_of from_nat N); auto. now apply conj_stats_len.
  Qed.

  Definition obj (prior post : P) (rows : list (list R)) : R :=
    rsum (map (fun x => dot (f x) (ess post)) rows)
    - kl_div (nat_of post) (ess post) (nat_of prior) (log_norm post) (log_norm prior).

  Lemma conj_obj_form prior post rows : ok prior -> ok post -> Forall row_ok rows ->
    obj prior post rows = log_norm (full prior rows) - log_norm prior
      - kl_div (nat_of post) (ess post) (nat_of (full prior rows)) (log_norm post) (log_norm (full prior rows)).
  Proof.
    intros Op Oq Hr. unfold obj. rewrite (rsum_dot_colsum N);
      [|auto|eapply Forall_impl; [|exact Hr]; intros x Hx; cbv beta; auto].
    apply (bound_elbo_form nat_of ess log_norm ok N); auto. now apply conj_stats_len.
  Qed.

  Lemma conj_obj_le prior post rows : ok prior -> ok post -> Forall row_ok rows ->
    obj prior post rows <= log_norm (full prior rows) - log_norm prior.
  Proof.
    intros Op Oq Hr. rewrite conj_obj_form by auto.
    assert (K := Hkl post (full prior rows) Oq (Hfo prior rows Op Hr)). lra.
  Qed.

  Lemma conj_obj_full prior rows : ok prior -> Forall row_ok rows ->
    obj prior (full prior rows) rows = log_norm (full prior rows) - log_norm prior.
  Proof.
    intros Op Hr. assert (Of := Hfo prior rows Op Hr). rewrite conj_obj_form by auto.
    rewrite (kl_self N) by auto. lra.
  Qed.

  Lemma conj_full_nil p : ok p -> from_nat (nat_of p) = p -> full p [] = p.
  Proof.
    intros Op E. unfold full. cbn [map colsum fold_right]. rewrite <- E at 2. f_equal.
    assert (L := Hn p Op).
    apply vec_ext; [rewrite vadd_length; cbn; rewrite ?vzeros_length; auto|].
    intros k Hk. rewrite vadd_length in Hk by (cbn; rewrite vzeros_length; auto).
    rewrite vadd_nth by (cbn; rewrite ?vzeros_length; lia). cbn. rewrite vzeros_nth. lra.
  Qed.

  Lemma conj_full_cons p x rows : ok p -> row_ok x -> Forall row_ok rows ->
    full p (x :: rows) = full (full p [x]) rows.
  Proof.
    intros Op Hx Hr. unfold full at 1 2. f_equal. rewrite (Hfn p [x]) by auto.
    assert (L := Hn p Op). assert (Lx := Hfl x Hx). assert (Lr := conj_stats_len rows Hr).
    assert (L1 := conj_stats_len (x :: rows) ltac:(auto)). assert (L2 := conj_stats_len [x] ltac:(auto)).
    assert (L3 : length (vadd (nat_of p) (colsum N (map f [x]))) = N) by (rewrite vadd_length; congruence).
    apply vec_ext; [rewrite !vadd_length; congruence|].
    intros k Hk. rewrite vadd_length in Hk by congruence.
    rewrite !vadd_nth by lia.
    assert (F : Forall (fun r => length r = N) (map f rows)).
    { apply Forall_forall. intros r Hrr. apply in_map_iff in Hrr. destruct Hrr as (y & <- & Hy).
      apply Hfl. exact (proj1 (Forall_forall _ _) Hr y Hy). }
    rewrite !colsum_nth by (cbn [map]; auto; lia). cbn [map]. rewrite !sumf_cons, sumf_nil. ring.
  Qed.
End Conj.

(** ** Categorical *)
Section Cat.
  Variable d : nat.
  Hypothesis Hd : (0 < d)%nat.
  Definition crow (x : list R) : Prop := length x = d /\ Forall (fun v => 0 <= v) x.

  Lemma dir_ne p : dir_ok d p -> p <> [].
  Proof. intros (A & _). destruct p; simpl in *; [lia|congruence]. Qed.

  Lemma cat_n p : dir_ok d p -> length (dir_nat p) = d.
  Proof. intros Op. rewrite dir_nat_length by (now apply dir_ne). apply Op. Qed.
  Lemma cat_e p : dir_ok d p -> length (dir_ess p) = d.
  Proof. intros Op. rewrite dir_ess_length by (now apply dir_ne). apply Op. Qed.
  Lemma cat_f x : crow x -> length (cat_suff_stats x) = d.
  Proof. intros (A & _). rewrite cat_suff_stats_length; [auto|]. destruct x; simpl in *; [lia|congruence]. Qed.

  Notation cfull := (full dir_nat dir_from_nat d cat_suff_stats).

  Lemma crow_dim rows : Forall crow rows -> frames_of_dim d (ones rows).
  Proof. intros H. apply ones_dim. eapply Forall_impl; [|exact H]. intros x Hx. apply Hx. Qed.

  Lemma cat_full_spec p rows : dir_ok d p -> Forall crow rows ->
    length (cfull p rows) = d /\
    forall k, (k < d)%nat -> nth k (cfull p rows) 0 = nth k p 0 + sumf (fun x => nth k x 0) rows.
  Proof.
    intros Op Hr.
    rewrite <- (conj_full_step dir_nat dir_from_nat (dir_ok d) d cat_suff_stats crow cat_n cat_f p p rows) by auto.
    rewrite colsum_wstats.
    destruct (dir_update_spec d 1 p p (ones rows) Hd (proj1 Op) (proj1 Op) (crow_dim rows Hr)) as [A B].
    split; [exact A|]. intros k Hk. rewrite B by auto. unfold Sw, ones. rewrite sumf_map. cbn [fst snd].
    rewrite (sumf_ext (fun a : list R => 1 * nth k a 0) (fun x => nth k x 0)) by (intros; ring). ring.
  Qed.

  Lemma cat_fo p rows : dir_ok d p -> Forall crow rows -> dir_ok d (cfull p rows).
  Proof.
    intros Op Hr. destruct (cat_full_spec p rows Op Hr) as [A B].
    repeat apply conj; auto. apply Forall_pos_of_nth. intros k Hk. rewrite A in Hk. rewrite B by auto.
    assert (0 < nth k p 0) by (apply Forall_pos_nth; [apply Op|destruct Op as (E & _); lia]).
    assert (0 <= sumf (fun x => nth k x 0) rows); [|lra].
    apply sumf_nonneg. intros x Hx. destruct (proj1 (Forall_forall _ _) Hr x Hx) as [L F].
    destruct (nth_in_or_default k x 0) as [I|E]; [exact (proj1 (Forall_forall _ _) F _ I)|rewrite E; lra].
  Qed.

  Lemma cat_fn p rows : dir_ok d p -> Forall crow rows ->
    dir_nat (cfull p rows) = vadd (dir_nat p) (colsum d (map cat_suff_stats rows)).
  Proof.
    intros Op Hr. apply dir_nat_dir_from_nat. intros E.
    assert (L : length (vadd (dir_nat p) (colsum d (map cat_suff_stats rows))) = d).
    { rewrite vadd_length; rewrite cat_n by auto; auto.
      now rewrite (conj_stats_len d cat_suff_stats crow cat_f). }
    rewrite E in L. simpl in L. lia.
  Qed.

  Lemma unit_row_ok k : crow (unit_row d k).
  Proof.
    unfold crow, unit_row. rewrite map_length, seq_length. split; [reflexivity|].
    apply Forall_forall. intros v Hv. apply in_map_iff in Hv. destruct Hv as (j & <- & _).
    destruct (Nat.eqb j k); lra.
  Qed.

  Lemma unit_rows_ok ks : Forall crow (map (unit_row d) ks).
  Proof. apply Forall_forall. intros r Hr. apply in_map_iff in Hr. destruct Hr as (k & <- & _). apply unit_row_ok. Qed.

  Lemma unit_row_nth k j : (j < d)%nat -> nth j (unit_row d k) 0 = if Nat.eqb j k then 1 else 0.
  Proof.
    intros Hj. unfold unit_row. rewrite (nth_indep _ 0 (if Nat.eqb 0 k then 1 else 0)) by (rewrite map_length, seq_length; lia).
    rewrite (map_nth (fun j => if Nat.eqb j k then 1 else 0)), seq_nth by lia. reflexivity.
  Qed.

  Lemma urn_ext u v ks : (forall j, (j < d)%nat -> u j = v j) -> Forall (fun k => (k < d)%nat) ks ->
    urn_prob d u ks = urn_prob d v ks.
  Proof.
    revert u v. induction ks as [|k ks IH]; intros u v E Hk; [reflexivity|]. inversion Hk; subst.
    cbn [urn_prob]. f_equal; [|apply IH; auto].
    - rewrite E by auto. f_equal. apply sumf_ext. intros j Hj. apply in_seq in Hj. apply E. lia.
    - intros j Hj. unfold urn_add. rewrite (E j Hj). reflexivity.
  Qed.

  Lemma dir_total p : dir_ok d p -> 0 < rsum p /\ rsum p = urn_total d (fun j => nth j p 0).
  Proof.
    intros (A & B & C). split; [apply rsum_pos_ne; auto; destruct p; simpl in *; [lia|congruence]|].
    unfold urn_total. rewrite rsum_nth. now rewrite A.
  Qed.

  Lemma urn_pos ks : forall u, (forall j, (j < d)%nat -> 0 < u j) -> Forall (fun k => (k < d)%nat) ks ->
    0 < urn_prob d u ks.
  Proof.
    induction ks as [|k ks IH]; intros u Hu Hk; [simpl; lra|]. inversion Hk; subst. cbn [urn_prob].
    apply Rmult_lt_0_compat.
    - apply Rdiv_lt_0_compat; auto. unfold urn_total. apply (sumf_pos u (seq 0 d) k); auto.
      + intros j Hj. apply in_seq in Hj. apply Rlt_le, Hu. lia.
      + apply in_seq. lia.
    - apply IH; auto. intros j Hj. unfold urn_add. specialize (Hu j Hj). destruct (Nat.eqb j k); lra.
  Qed.

  Lemma cat_one p k : dir_ok d p -> (k < d)%nat ->
    dir_log_norm (cfull p [unit_row d k]) - dir_log_norm p =
    ln (nth k p 0 / urn_total d (fun j => nth j p 0)).
  Proof.
    intros Op Hk. destruct (cat_full_spec p [unit_row d k] Op ltac:(constructor; [apply unit_row_ok|auto])) as [A B].
    set (q := cfull p [unit_row d k]) in *.
    assert (Bk : forall j, (j < d)%nat -> nth j q 0 = nth j p 0 + if Nat.eqb j k then 1 else 0).
    { intros j Hj. rewrite B by auto. rewrite sumf_cons, sumf_nil, unit_row_nth by auto. lra. }
    destruct (dir_total p Op) as [T0 T1]. rewrite <- T1.
    assert (Pk : 0 < nth k p 0) by (apply Forall_pos_nth; [apply Op|destruct Op as (E & _); lia]).
    assert (Lp : length p = d) by apply Op.
    assert (Sq : rsum q = rsum p + 1).
    { rewrite !rsum_nth, A, Lp.
      rewrite (sumf_ext (fun i => nth i q 0) (fun i => nth i p 0 + if Nat.eqb i k then 1 else 0)).
      2:{ intros i Hi. apply in_seq in Hi. apply Bk. lia. }
      rewrite sumf_plus. f_equal. rewrite (sumf_seq_single _ d k); [now rewrite Nat.eqb_refl|auto|].
      intros j Hj Hne. now rewrite (proj2 (Nat.eqb_neq j k) Hne). }
    assert (Lg : rsum (map lgamma q) - rsum (map lgamma p) = ln (nth k p 0)).
    { rewrite !rsum_nth, !map_length, A, Lp. rewrite <- sumf_minus.
      rewrite (sumf_seq_single _ d k); auto.
      - rewrite !map_nth_R by lia. rewrite Bk, Nat.eqb_refl by auto. rewrite lgamma_rec by auto. ring.
      - intros j Hj Hne. rewrite !map_nth_R by lia. rewrite Bk by auto.
        rewrite (proj2 (Nat.eqb_neq j k) Hne), Rplus_0_r. ring. }
    unfold dir_log_norm. rewrite Sq, lgamma_rec, ln_div by auto. lra.
  Qed.

  Lemma cat_evidence ks : forall p, dir_ok d p -> Forall (fun k => (k < d)%nat) ks ->
    dir_log_norm (cfull p (map (unit_row d) ks)) - dir_log_norm p = ln (urn_prob d (fun j => nth j p 0) ks).
  Proof.
    induction ks as [|k ks IH]; intros p Op Hk.
    - cbn [map urn_prob]. rewrite (conj_full_nil dir_nat dir_from_nat (dir_ok d) d cat_suff_stats cat_n) by
        (auto; apply dir_from_nat_dir_nat; now apply dir_ne). rewrite ln_1. ring.
    - inversion Hk as [|? ? Hk1 Hk2]; subst. cbn [map].
      rewrite (conj_full_cons dir_nat dir_from_nat (dir_ok d) d cat_suff_stats crow cat_n cat_f cat_fn)
        by (auto using unit_row_ok, unit_rows_ok).
      assert (F1 : Forall crow [unit_row d k]) by (constructor; [apply unit_row_ok|auto]).
      set (q := cfull p [unit_row d k]).
      assert (Oq : dir_ok d q) by (apply cat_fo; auto).
      assert (E1 := IH q Oq Hk2). assert (E2 := cat_one p k Op Hk1). fold q in E2.
      cbn [urn_prob]. destruct (dir_total p Op) as [T0 T1].
      assert (Pp : forall j, (j < d)%nat -> 0 < nth j p 0)
        by (intros j Hj; apply Forall_pos_nth; [apply Op|destruct Op as (E & _); lia]).
      rewrite ln_mult.
      + rewrite <- E2. rewrite (urn_ext (urn_add k (fun j => nth j p 0)) (fun j => nth j q 0)); auto; [lra|].
        intros j Hj. unfold urn_add, q. destruct (cat_full_spec p [unit_row d k] Op F1) as [_ B].
        rewrite B by auto. rewrite sumf_cons, sumf_nil, unit_row_nth by auto. destruct (Nat.eqb j k); lra.
      + apply Rdiv_lt_0_compat; [auto|lra].
      + apply urn_pos; auto. intros j Hj. unfold urn_add. specialize (Pp j Hj). destruct (Nat.eqb j k); lra.
  Qed.
End Cat.

(** ** Predictive densities *)

(** Part of the log-normaliser of a Normal-Gamma distribution that a belief
    with [D] observed dimensions contributes. *)
Definition bnorm (D : nat) (b : belief) : R :=
  lgamma (shp b) - shp b * ln (rte b) - 1/2 * INR D * ln (weight b).

Definition belief_ok (b : belief) : Prop := 0 < weight b /\ 0 < shp b /\ 0 < rte b.

Lemma dist2_nonneg D x c : 0 <= dist2 D x c.
Proof. apply sumf_nonneg. intros i _. apply pow2_ge_0. Qed.

Lemma learn_ok D b x : belief_ok b -> belief_ok (learn D b x).
Proof.
  intros (A & B & C). unfold belief_ok, learn. cbn. assert (I := pos_INR D). repeat split; try lra.
  assert (0 <= weight b / (weight b + 1) * dist2 D x (centre b)); [|lra].
  apply Rmult_le_pos; [|apply dist2_nonneg]. apply Rlt_le, Rdiv_lt_0_compat; lra.
Qed.

Lemma predictive_pos D b x : 0 < predictive D b x.
Proof.
  unfold predictive, student_pdf. repeat apply Rmult_lt_0_compat; try apply exp_pos.
  apply Rinv_0_lt_compat, exp_pos.
Qed.

Lemma evidence_pos D xs : forall b, 0 < evidence D b xs.
Proof.
  induction xs as [|x r IH]; intros b; cbn; [lra|]. apply Rmult_lt_0_compat; [apply predictive_pos|apply IH].
Qed.

Lemma ln_predictive D b x : belief_ok b ->
  ln (predictive D b x) = bnorm D (learn D b x) - bnorm D b - 1/2 * INR D * ln (2 * PI).
Proof.
  intros (A & B & C). unfold predictive, student_pdf. set (r2 := dist2 D x (centre b)).
  assert (R2 : 0 <= r2) by apply dist2_nonneg. assert (HP := PI_RGT_0).
  unfold Rdiv at 1. rewrite !ln_mult by (repeat apply Rmult_lt_0_compat; try apply exp_pos; apply Rinv_0_lt_compat, exp_pos).
  rewrite ln_Rinv by apply exp_pos. unfold Rpower. rewrite !ln_exp.
  assert (K1 : 0 < (weight b + 1) / weight b) by (apply Rdiv_lt_0_compat; lra).
  replace (2 * shp b * PI * (rte b / shp b * ((weight b + 1) / weight b)))
    with ((2 * PI) * (rte b * ((weight b + 1) / weight b))) by (field; lra).
  rewrite (ln_mult (2 * PI)) by (try apply Rmult_lt_0_compat; lra). rewrite (ln_mult (rte b)) by lra. rewrite ln_div by lra.
  replace (2 * shp b / 2) with (shp b) by lra.
  replace ((2 * shp b + INR D) / 2) with (shp b + INR D / 2) by lra.
  unfold bnorm, learn. cbn [shp rte weight]. fold r2.
  replace (rte b + weight b / (weight b + 1) * r2 / 2)
    with (rte b * (1 + r2 / (2 * shp b * (rte b / shp b * ((weight b + 1) / weight b))))) by (field; lra).
  assert (K2 : 0 < 2 * shp b * (rte b / shp b * ((weight b + 1) / weight b))).
  { apply Rmult_lt_0_compat; [lra|]. apply Rmult_lt_0_compat; [|lra]. now apply Rdiv_lt_0_compat. }
  assert (K3 : 0 <= r2 / (2 * shp b * (rte b / shp b * ((weight b + 1) / weight b)))).
  { apply Rmult_le_pos; [lra|]. now apply Rlt_le, Rinv_0_lt_compat. }
  rewrite (ln_mult (rte b)) by lra. field.
Qed.

Lemma evidence_ext D xs : forall b c, weight b = weight c -> shp b = shp c -> rte b = rte c ->
  (forall i, (i < D)%nat -> centre b i = centre c i) -> evidence D b xs = evidence D c xs.
Proof.
  induction xs as [|x r IH]; intros b c E1 E2 E3 E4; [reflexivity|]. cbn [evidence].
  assert (Ed : dist2 D x (centre b) = dist2 D x (centre c)).
  { apply sumf_ext. intros i Hi. apply in_seq in Hi. rewrite E4 by lia. reflexivity. }
  f_equal.
  - unfold predictive. now rewrite E1, E2, E3, Ed.
  - apply IH; cbn; rewrite ?E1, ?E2, ?E3, ?Ed; auto. intros i Hi. now rewrite E4.
Qed.

(** ** Diagonal covariance *)
Section Diag.
  Variable d : nat.
  Definition drow (x : list R) : Prop := length x = d.

  Lemma diag_n p : ng_ok d p -> length (ng_nat p) = (2 * d + 2)%nat.
  Proof. intros (A & B & _). now apply ng_nat_length. Qed.
  Lemma diag_e p : ng_ok d p -> length (ng_ess p) = (2 * d + 2)%nat.
  Proof. intros (A & B & _). rewrite (ng_ess_length d); auto; lia. Qed.
  Lemma diag_f x : drow x -> length (nd_suff_stats x) = (2 * d + 2)%nat.
  Proof. unfold drow. intros E. rewrite nd_suff_length. now rewrite E. Qed.

  Notation dfull := (full ng_nat ng_from_nat (2 * d + 2) nd_suff_stats).

  Lemma diag_full_is p rows : ng_ok d p -> Forall drow rows ->
    dfull p rows = std_update ng_nat ng_from_nat 1 p p (wstats (2 * d + 2) nd_suff_stats (ones rows)).
  Proof.
    intros Op Hr. rewrite <- colsum_wstats. symmetry.
    apply (conj_full_step ng_nat ng_from_nat (ng_ok d) (2 * d + 2) nd_suff_stats drow); auto using diag_n, diag_f.
  Qed.

  Lemma diag_fo p rows : ng_ok d p -> Forall drow rows -> ng_ok d (dfull p rows).
  Proof.
    intros Op Hr. rewrite diag_full_is by auto. destruct Op as (P1 & P2 & P3).
    apply ng_full_ok; auto using ones_dim, ones_nonneg. repeat split; auto; apply P3.
  Qed.

  Lemma diag_fn p rows : ng_ok d p -> Forall drow rows ->
    ng_nat (dfull p rows) = vadd (ng_nat p) (colsum (2 * d + 2) (map nd_suff_stats rows)).
  Proof.
    intros Op Hr.
    assert (Ls := conj_stats_len (2 * d + 2) nd_suff_stats drow diag_f rows Hr).
    assert (Ln := diag_n p Op). destruct Op as (P1 & P2 & P3 & P4 & P5).
    assert (Hx := ones_dim d rows Hr). assert (N0 := Nw_nonneg _ (ones_nonneg rows)).
    apply (ng_roundtrip' d); [rewrite vadd_length; congruence|].
    assert (E := ng_upd_3 d 1 p p (ones rows) P1 P2 P1 P2 Hx). rewrite <- colsum_wstats in E.
    rewrite (gen_upd_nth ng_nat (2 * d + 2)) in E by (auto; lia).
    rewrite vadd_nth by lia. lra.
  Qed.

  (** What the posterior says of dimension [i]. *)
  Definition dbelief (p : ng_par) (i : nat) : belief :=
    {| centre := fun _ => nth i (ng_mean p) 0; weight := ng_scale p; shp := ng_shape p;
       rte := nth i (ng_rates p) 0 |}.

  Lemma dbelief_ok p i : ng_ok d p -> (i < d)%nat -> belief_ok (dbelief p i).
  Proof.
    intros (P1 & P2 & P3 & P4 & P5) Hi. repeat split; cbn; auto. apply Forall_pos_nth; auto. lia.
  Qed.

  Lemma diag_norm p : ng_ok d p -> ng_log_norm p = sumf (fun i => bnorm 1 (dbelief p i)) (seq 0 d).
  Proof.
    intros (P1 & P2 & _). rewrite (ng_log_norm_nth d) by auto. apply sumf_ext. intros i Hi.
    unfold bnorm, dbelief. cbn. lra.
  Qed.

  Lemma diag_one p x : ng_ok d p -> drow x -> forall i, (i < d)%nat ->
    let c := learn 1 (dbelief p i) (fun _ => nth i x 0) in
    let q := dbelief (dfull p [x]) i in
    weight q = weight c /\ shp q = shp c /\ rte q = rte c /\
    (forall j, (j < 1)%nat -> centre q j = centre c j).
  Proof.
    intros Op Hx i Hi c q. assert (Hf : Forall drow [x]) by auto.
    unfold q. rewrite (diag_full_is p [x]) by auto. assert (Oq := Op).
    destruct Op as (P1 & P2 & P3 & P4 & P5).
    assert (Nx : Nw (ones [x]) = 1) by (unfold Nw, ones; cbn; ring).
    assert (Sx : Sw i (ones [x]) = nth i x 0) by (unfold Sw, ones, sumf; cbn; ring).
    assert (Dx : forall m, Dev i m (ones [x]) = (nth i x 0 - m) ^ 2) by (intros m; unfold Dev, ones, sumf; cbn; ring).
    destruct (ng_full_step d p p (ones [x]) P1 P2 P1 P2 (ones_dim d [x] Hf)) as (A & B & C & D & E & F); [rewrite Nx; lra|].
    set (r := std_update _ _ _ _ _ _) in *. clearbody r.
    rewrite Nx in C, D. specialize (E i Hi). specialize (F i Hi). rewrite Nx, Sx in E. rewrite Dx in F.
    unfold c, dbelief, learn, dist2. cbn [weight shp rte centre]. cbn [seq]. rewrite sumf_cons, sumf_nil.
    repeat apply conj.
    - exact C.
    - rewrite D. cbn [INR]. lra.
    - rewrite F, E. field. lra.
    - intros j _. rewrite E. field. lra.
  Qed.

  Lemma diag_evidence rows : forall p, ng_ok d p -> Forall drow rows ->
    ng_log_norm (dfull p rows) - ng_log_norm p - 1/2 * INR d * ln (2 * PI) * INR (length rows) =
    sumf (fun i => ln (evidence 1 (dbelief p i) (map (fun x _ => nth i x 0) rows))) (seq 0 d).
  Proof.
    induction rows as [|x rows IH]; intros p Op Hr.
    - rewrite (conj_full_nil ng_nat ng_from_nat (ng_ok d) (2 * d + 2) nd_suff_stats diag_n); auto.
      + cbn [map evidence length INR]. rewrite ln_1, sumf_zero by auto. ring.
      + destruct Op as (P1 & P2 & P3 & _). apply (ng_roundtrip d); auto. lra.
    - inversion Hr as [|? ? Hx Hr']; subst.
      rewrite (conj_full_cons ng_nat ng_from_nat (ng_ok d) (2 * d + 2) nd_suff_stats drow diag_n diag_f diag_fn) by auto.
      assert (F1 : Forall drow [x]) by auto. assert (O1 := diag_one p x Op Hx).
      assert (Oq := diag_fo p [x] Op F1). set (q := dfull p [x]) in *.
      assert (E1 := IH q Oq Hr').
      rewrite (sumf_ext (fun i => ln (evidence 1 (dbelief p i) (map (fun x _ => nth i x 0) (x :: rows))))
        (fun i => (bnorm 1 (dbelief q i) - bnorm 1 (dbelief p i) - 1/2 * ln (2 * PI))
                  + ln (evidence 1 (dbelief q i) (map (fun x _ => nth i x 0) rows)))).
      2:{ intros i Hi. apply in_seq in Hi. cbn [map evidence].
          rewrite ln_mult by (apply predictive_pos || apply evidence_pos).
          rewrite ln_predictive by (apply dbelief_ok; auto; lia).
          destruct (O1 i ltac:(lia)) as (A & B & C & D).
          rewrite (evidence_ext 1 _ (learn 1 (dbelief p i) _) (dbelief q i)) by
            (try (symmetry; assumption); intros j Hj; symmetry; now apply D).
          unfold bnorm. rewrite A, B, C. cbn [INR]. ring. }
      rewrite sumf_plus, <- E1, !sumf_minus, <- !diag_norm by auto. rewrite sumf_const, seq_length.
      cbn [length]. rewrite S_INR. ring.
  Qed.
End Diag.

(** ** Isotropic covariance *)
Section Iso.
  Variable d : nat.

  Lemma iso_n p : ig_ok d p -> length (ig_nat p) = (d + 3)%nat.
  Proof. intros (A & _). rewrite ig_nat_length. now rewrite A. Qed.
  Lemma iso_e p : ig_ok d p -> length (ig_ess p) = (d + 3)%nat.
  Proof. intros (A & _). rewrite ig_ess_length. now rewrite A. Qed.
  Lemma iso_f x : drow d x -> length (in_suff_stats x) = (d + 3)%nat.
  Proof. unfold drow. intros E. rewrite in_suff_length. now rewrite E. Qed.

  Notation ifull := (full ig_nat ig_from_nat (d + 3) in_suff_stats).

  Lemma iso_full_is p rows : ig_ok d p -> Forall (drow d) rows ->
    ifull p rows = std_update ig_nat ig_from_nat 1 p p (wstats (d + 3) in_suff_stats (ones rows)).
  Proof.
    intros Op Hr. rewrite <- colsum_wstats. symmetry.
    apply (conj_full_step ig_nat ig_from_nat (ig_ok d) (d + 3) in_suff_stats (drow d)); auto using iso_n, iso_f.
  Qed.

  Lemma iso_fo p rows : ig_ok d p -> Forall (drow d) rows -> ig_ok d (ifull p rows).
  Proof.
    intros Op Hr. rewrite iso_full_is by auto.
    apply ig_full_ok; auto using ones_dim, ones_nonneg. apply Op.
  Qed.

  Lemma iso_fn p rows : ig_ok d p -> Forall (drow d) rows ->
    ig_nat (ifull p rows) = vadd (ig_nat p) (colsum (d + 3) (map in_suff_stats rows)).
  Proof.
    intros (P1 & P2 & _) Hr. unfold full. rewrite colsum_wstats. apply ig_full_nat; auto using ones_dim.
    assert (N0 := Nw_nonneg _ (ones_nonneg rows)). lra.
  Qed.

  Definition ibelief (p : ing_par) : belief :=
    {| centre := fun i => nth i (ig_mean p) 0; weight := ig_scale p; shp := ig_shape p; rte := ig_rate p |}.

  Lemma iso_norm p : ig_ok d p -> ig_log_norm p = bnorm d (ibelief p).
  Proof. intros (P1 & _). unfold ig_log_norm, bnorm, ibelief. cbn. now rewrite P1. Qed.

  Lemma iso_one p x : ig_ok d p -> drow d x ->
    let c := learn d (ibelief p) (fun i => nth i x 0) in
    let q := ibelief (ifull p [x]) in
    weight q = weight c /\ shp q = shp c /\ rte q = rte c /\
    (forall j, (j < d)%nat -> centre q j = centre c j).
  Proof.
    intros Op Hx c q. assert (Hf : Forall (drow d) [x]) by auto.
    unfold q. rewrite (iso_full_is p [x]) by auto.
    destruct Op as (P1 & P3 & P4 & P5).
    assert (Nx : Nw (ones [x]) = 1) by (unfold Nw, ones; cbn; ring).
    assert (Sx : forall i, Sw i (ones [x]) = nth i x 0) by (intros i; unfold Sw, ones, sumf; cbn; ring).
    assert (Dx : forall i m, Dev i m (ones [x]) = (nth i x 0 - m) ^ 2) by (intros i m; unfold Dev, ones, sumf; cbn; ring).
    destruct (ig_full_step d p p (ones [x]) P1 P1 (ones_dim d [x] Hf)) as (A & C & D & E & F); [rewrite Nx; lra|].
    set (r := std_update _ _ _ _ _ _) in *. clearbody r.
    rewrite Nx in C, D.
    assert (Em : forall i, (i < d)%nat -> nth i (ig_mean r) 0 = (ig_scale p * nth i (ig_mean p) 0 + nth i x 0) / (ig_scale p + 1)).
    { intros i Hi. rewrite E by auto. now rewrite Nx, Sx. }
    unfold c, ibelief, learn, dist2. cbn [weight shp rte centre].
    repeat apply conj.
    - exact C.
    - rewrite D. lra.
    - rewrite F. rewrite Rplus_assoc. f_equal.
      rewrite <- !sumf_scal_l, <- sumf_plus. unfold Rdiv. rewrite <- sumf_scal_r.
      apply sumf_ext. intros i Hi. apply in_seq in Hi. rewrite Dx, Em by lia. field. lra.
    - intros j Hj. rewrite Em by auto. field. lra.
  Qed.

  Lemma ibelief_ok p : ig_ok d p -> belief_ok (ibelief p).
  Proof. intros (P1 & P3 & P4 & P5). repeat split; auto. Qed.

  Lemma iso_evidence rows : forall p, ig_ok d p -> Forall (drow d) rows ->
    ig_log_norm (ifull p rows) - ig_log_norm p - 1/2 * INR d * ln (2 * PI) * INR (length rows) =
    ln (evidence d (ibelief p) (map (fun x i => nth i x 0) rows)).
  Proof.
    induction rows as [|x rows IH]; intros p Op Hr.
    - rewrite (conj_full_nil ig_nat ig_from_nat (ig_ok d) (d + 3) in_suff_stats iso_n); auto.
      + cbn [map evidence length INR]. rewrite ln_1. ring.
      + destruct Op as (P1 & P3 & _). apply (ig_roundtrip d); auto. lra.
    - inversion Hr as [|? ? Hx Hr']; subst.
      rewrite (conj_full_cons ig_nat ig_from_nat (ig_ok d) (d + 3) in_suff_stats (drow d) iso_n iso_f iso_fn) by auto.
      assert (F1 : Forall (drow d) [x]) by auto. destruct (iso_one p x Op Hx) as (A & B & C & D).
      assert (Oq := iso_fo p [x] Op F1). set (q := ifull p [x]) in *.
      assert (E1 := IH q Oq Hr'). cbn [map evidence].
      rewrite (ln_mult (predictive _ _ _)) by (apply predictive_pos || apply evidence_pos).
      rewrite ln_predictive by (now apply ibelief_ok).
      rewrite (evidence_ext d _ (learn d (ibelief p) _) (ibelief q)) by
        (try (symmetry; assumption); intros j Hj; symmetry; now apply D).
      rewrite <- E1, (iso_norm p), (iso_norm q) by auto. unfold bnorm. rewrite A, B, C.
      cbn [length]. rewrite S_INR. ring.
  Qed.
End Iso.

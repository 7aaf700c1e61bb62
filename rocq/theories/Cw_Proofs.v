(** The evidence lower bounds of the phone-loops are bounded from above. *)
From Coq Require Import Reals List Arith Bool Lia Lra.
From Verif Require Import Prelude Vec Lgamma FB_Model FB_Spec FB_Proofs Edit_Model Dec_Model Set_Model Set_Spec Set_Proofs
  HMM_Model HMM_Spec HMM_Proofs Dist_Model Dist_Spec Dist_Proofs KL_Proofs Dist_Props Mat NW_Model NW_Spec
  SB_Model SB_Spec SB_Proofs Sk_Model Sk_Spec Sk_Proofs Sk_Props
  Vt_Model Vt_Spec Vt_Proofs Vt_Props Vl_Model Vl_Spec Vl_Proofs Mx_Model Mx_Spec Mx_Proofs Mx_Props
  Pw_Model Pw_Spec Pw_Proofs Pw_Props Bg_Model Bg_Spec Bg_Proofs Bg_Props Cv_Spec Cv_Proofs Cv_Props Cw_Spec.
Import ListNotations.
Local Open Scope R_scope.

(** ** Graphs with larger transitions *)
Lemma tail_prob_mono g tr tr' : (forall i j, ex (tr i j) <= ex (tr' i j)) ->
  forall ls i p, tail_prob (with_trans g tr) i ls p <= tail_prob (with_trans g tr') i ls p.
Proof.
  intros H. induction ls as [|r ls IH]; intros i [|j p]; cbn [tail_prob]; try lra; [cbn; lra|].
  cbn [with_trans cg_trans]. specialize (IH j p). specialize (H i j).
  assert (0 <= ex (tr i j)) by apply ex_nonneg. assert (0 <= ex (r j)) by apply ex_nonneg.
  assert (0 <= tail_prob (with_trans g tr) j ls p) by apply tail_prob_nonneg.
  apply Rmult_le_compat; auto; [now apply Rmult_le_pos|]. now apply Rmult_le_compat_r.
Qed.

Lemma path_prob_mono g tr tr' : (forall i j, ex (tr i j) <= ex (tr' i j)) ->
  forall ls p, path_prob (with_trans g tr) ls p <= path_prob (with_trans g tr') ls p.
Proof.
  intros H [|r ls] [|j p]; cbn [path_prob]; try lra. cbn [with_trans cg_init].
  apply Rmult_le_compat_l; [apply Rmult_le_pos; apply ex_nonneg|]. now apply tail_prob_mono.
Qed.

(** ** Any loop *)
Section Loop.
  Variables (k : kind) (D : nat) (scale w : R) (l : ploop) (skel : mset) (utts : list lutt).
  Hypothesis Hs : 0 <= scale.
  Hypothesis Hw : 0 <= w.

  Definition top (tr : nat -> nat -> lp) (i j : nat) : lp :=
    if existsb (Nat.eqb i) (pl_ends l) && existsb (Nat.eqb j) (pl_starts l) then Fin 0 else tr i j.

  Lemma eqb_in (a : nat) t : existsb (Nat.eqb a) t = true <-> In a t.
  Proof.
    rewrite existsb_exists. split; [intros (x & Hx & E); apply Nat.eqb_eq in E; now subst|]. intros H. exists a. split; [exact H|apply Nat.eqb_refl].
  Qed.

  Lemma loop_ub st0 tr0 : typed k D st0 skel -> Forall (fun x => utt_ok k D skel (lu_utt l tr0 x)) utts ->
    exists B, forall st tr, typed k D st skel -> Forall (fun x => utt_ok k D skel (lu_utt l tr x)) utts ->
      loop_kept l skel st0 tr0 st tr ->
      (forall i j, In i (pl_ends l) -> In j (pl_starts l) -> ex (tr i j) <= 1) ->
      w * sumf (fun x => let u := lu_utt l tr x in loglik scale skel st (u_graph u) u) utts - total_kl skel st <= B.
  Proof.
    intros T0 H0. assert (H0' : Forall (utt_ok k D skel) (map (lu_utt l tr0) utts)) by (now apply Forall_map).
    destruct (bound_ub k D scale w skel _ st0 Hs Hw T0 H0') as (B & HB).
    exists (w * sumf (ucst scale skel) (map (lu_utt l (top tr0)) utts) + B).
    intros st tr T HU (Kp & Kt) H1.
    assert (Es : map u_stats (map (lu_utt l tr) utts) = map u_stats (map (lu_utt l tr0) utts)).
    { rewrite !map_map. apply map_ext. intros x. unfold lu_utt. now destruct (lu_ali x) as [[g o]|]. }
    assert (HU' : Forall (utt_ok k D skel) (map (lu_utt l tr) utts)) by (now apply Forall_map).
    specialize (HB st _ T Kp HU' Es). unfold bound in HB. rewrite !sumf_map in HB.
    assert (C : sumf (fun x => ucst scale skel (lu_utt l tr x)) utts <= sumf (fun x => ucst scale skel (lu_utt l (top tr0) x)) utts).
    { apply sumf_le. intros x Hx. unfold ucst.
      replace (u_stats (lu_utt l (top tr0) x)) with (u_stats (lu_utt l tr x)) by (unfold lu_utt; now destruct (lu_ali x) as [[g o]|]).
      replace (sk_ems skel (lu_utt l (top tr0) x)) with (sk_ems skel (lu_utt l tr x)) by (unfold sk_ems, lu_utt; now destruct (lu_ali x) as [[g o]|]).
      apply Rplus_le_compat_r. apply ln_mono.
      - assert (U := proj1 (Forall_forall _ _) HU x Hx). destruct U as (_ & _ & _ & _ & p & Hp & P).
        unfold prior_mass. eapply Rlt_le_trans; [exact P|]. apply (sumf_ge_term (prior_prob _ _)); [intros; apply path_prob_nonneg|exact Hp].
      - unfold prior_mass. unfold lu_utt. destruct (lu_ali x) as [[g o]|]; cbn [u_graph u_stats]; [lra|].
        change (cg_n (with_trans (pl_graph l) (top tr0))) with (cg_n (with_trans (pl_graph l) tr)). apply sumf_le. intros p _.
        unfold prior_prob. apply path_prob_mono. intros i j. unfold top.
        destruct (existsb (Nat.eqb i) (pl_ends l) && existsb (Nat.eqb j) (pl_starts l))%bool eqn:Eb.
        + apply andb_true_iff in Eb. rewrite !eqb_in in Eb. cbn [ex]. rewrite exp_0. now apply H1.
        + rewrite Kt; [lra|]. rewrite <- !eqb_in, <- andb_true_iff, Eb. discriminate. }
    apply (Rmult_le_compat_l w) in C; [|exact Hw]. eapply Rle_trans; [exact HB|]. rewrite sumf_map. lra.
  Qed.
End Loop.

(** ** Weights *)
Lemma e_ln_neg ab : 0 < fst ab -> 0 < snd ab -> e_ln_v ab <= 0 /\ e_ln_rest ab <= 0.
Proof.
  intros A B. unfold e_ln_v, e_ln_rest.
  assert (X := digamma_mono_le (fst ab) (fst ab + snd ab) A ltac:(lra)).
  assert (Y := digamma_mono_le (snd ab) (fst ab + snd ab) B ltac:(lra)). lra.
Qed.

Lemma stick_elog_neg n ord q k : (forall j, In j ord -> (j < n)%nat) -> length q = n -> positive_sticks q ->
  stick_elog ord q k <= 0.
Proof.
  intros Ho Lq Pq. induction ord as [|j t IH]; cbn [stick_elog]; [lra|].
  assert (Hj : (j < n)%nat) by (apply Ho; now left). assert (P := Forall_nth_in _ q j (0, 0) Pq ltac:(lia)).
  cbv beta in P. destruct (e_ln_neg (nth j q (0, 0))) as (A & B); try tauto.
  destruct (Nat.eqb_spec j k) as [<-|]; [exact A|]. assert (stick_elog t q k <= 0) by (apply IH; intros; apply Ho; now right). lra.
Qed.

Lemma order_in n o : is_order n o -> forall j, In j o -> (j < n)%nat.
Proof. intros H j Hj. apply (Permutation.Permutation_in _ H) in Hj. now apply in_seq in Hj. Qed.

Lemma elog_dir_neg n q k : dir_ok n q -> (k < n)%nat -> digamma (nth k q 0) - digamma (rsum q) <= 0.
Proof.
  intros Hq Hk. assert (A := weights_logprob n (CWeights q q) k (conj Hq Hq) Hk). cbn [cell_form] in A.
  destruct Hq as (Lq & Hn & Pq). rewrite cat_logprob_ess in A by lia. exact A.
Qed.

Lemma elog_weight_neg n c k : mxw_ok n c -> (k < n)%nat -> elog_weight c k <= 0.
Proof.
  destruct c as [p q|p o q|g h]; cbn [mxw_ok elog_weight].
  - intros (_ & Hq) Hk. now apply (elog_dir_neg n).
  - intros (Ho & Lq & Pq & _) Hk. apply (stick_elog_neg n); auto. now apply order_in.
  - intros (Ho & Lq & Pq & _) Hk. apply (stick_elog_neg n); auto. now apply order_in.
Qed.

Lemma beta_kl_nonneg q p : 0 < fst q -> 0 < snd q -> 0 < fst p -> 0 < snd p -> 0 <= beta_cross q q - beta_cross q p.
Proof.
  intros A B C E. rewrite <- Sk_Proofs.dir_kl_cross. apply (dir_kl_nonneg 2).
  - split; [reflexivity|]. split; [lia|]. now repeat constructor.
  - split; [reflexivity|]. split; [lia|]. now repeat constructor.
Qed.

Lemma weights_div_nonneg n c : mxw_ok n c -> 0 <= weights_kl c.
Proof.
  intros W. destruct c as [p q|p o q|g h].
  - rewrite <- (weights_kl_eq n _ W). cbn [mx_weights_kl]. destruct W as (Hp & Hq). now apply (dir_kl_nonneg n).
  - cbn [weights_kl]. destruct W as (Ho & Lq & Pq & ab & A & B & Hp). apply sumf_nonneg. intros j Hj. apply in_seq in Hj.
    assert (P := Forall_nth_in _ q j (0, 0) Pq ltac:(lia)). cbv beta in P.
    assert (N := nth_same_prior _ n _ j Hp ltac:(lia)). unfold nthp in N. rewrite N. apply beta_kl_nonneg; tauto.
  - cbn [weights_kl]. destruct W as (Ho & Lq & Pq & Gg & Gh & Hp). cbv zeta.
    destruct (gamma_1 _ Gh) as (Eg & Ga & Gb). destruct (gamma_1 _ Gg) as (Egp & Gpa & Gpb). unfold shape, rate in *.
    set (a := nth 0 (g_shape (h_gamma h)) 0) in *. set (b := nth 0 (g_rate (h_gamma h)) 0) in *.
    set (a0 := nth 0 (g_shape g) 0) in *. set (b0 := nth 0 (g_rate g) 0) in *.
    assert (K : 0 <= gamma_cross a b a b - gamma_cross a b a0 b0).
    { rewrite <- gamma_kl_1, <- Eg, <- Egp. now apply (gamma_kl_nonneg 1). }
    assert (Hab : 0 < a / b) by (now apply Rdiv_lt_0_compat).
    assert (0 <= sumf (fun q => beta_cross q q - (digamma a - ln b + (a / b - 1) * e_ln_rest q)) (h_sticks h)); [|lra].
    apply sumf_nonneg. intros q Hq. assert (P := proj1 (Forall_forall _ _) Pq q Hq). cbv beta in P.
    assert (X := beta_kl_nonneg q (1, a / b)). cbn [fst snd] in X. specialize (X ltac:(tauto) ltac:(tauto) ltac:(lra) Hab).
    unfold beta_cross at 2 in X. cbn [fst snd] in X. rewrite log_beta_1 in X by exact Hab.
    unfold Rdiv at 2 in X. rewrite ln_mult, ln_Rinv in X by (auto; now apply Rinv_0_lt_compat). assert (Y := digamma_lt_ln a Ga). lra.
Qed.

Lemma bg_kl_nonneg n K b : bg_ok n K b -> 0 <= bg_kl b.
Proof.
  destruct b as [p q|m o p q]; cbn [bg_ok bg_kl].
  - intros (Lp & Lq & Fp & Fq). apply sumf_nonneg. intros i Hi. apply in_seq in Hi.
    assert (Hp : dir_ok K (nth i p [])) by (apply Forall_nth_in; auto; lia).
    assert (Hq : dir_ok K (nth i q [])) by (apply Forall_nth_in; auto; lia).
    exact (weights_div_nonneg K (WDir (nth i p []) (nth i q [])) (conj Hp Hq)).
  - intros (_ & Ho & Lp & Lq & Pp & Pq). apply sumf_nonneg. intros j Hj. apply in_seq in Hj.
    assert (P := Forall_nth_in _ q j (0, 0) Pq ltac:(lia)). cbv beta in P.
    assert (P' := Forall_nth_in _ p j (0, 0) Pp ltac:(lia)). cbv beta in P'.
    apply beta_kl_nonneg; tauto.
Qed.

Lemma elog_next_neg n K b i k : bg_ok n K b -> (i < n)%nat -> (k < K)%nat -> elog_next K b i k <= 0.
Proof.
  destruct b as [p q|m o p q]; cbn [bg_ok elog_next].
  - intros (Lp & Lq & Fp & Fq) Hi Hk. apply (elog_dir_neg K); auto. apply Forall_nth_in; auto; lia.
  - intros (_ & Ho & Lp & Lq & Pp & Pq) Hi Hk. apply (stick_elog_neg K).
    + now apply order_in.
    + apply (Bg_Proofs.slice_length n); auto.
    + now apply slice_positive.
Qed.

(** ** Runs *)
Lemma run_limit {A} (inv : A -> Prop) (b : A -> R) (step : nat -> A -> option A) (B : R) (s0 : A) :
  inv s0 -> (forall n s, inv s -> exists s', step n s = Some s' /\ inv s' /\ b s <= b s') ->
  (forall s, inv s -> b s <= B) ->
  exists (run : nat -> A) (L : R), run 0%nat = s0 /\ (forall n, step n (run n) = Some (run (S n))) /\
    (forall n, inv (run n)) /\ (forall n, b (run n) <= b (run (S n)) <= L) /\ Un_cv (fun n => b (run n)) L.
Proof.
  intros I0 Hst HB.
  set (run := nat_rect (fun _ => A) s0 (fun n s => match step n s with Some s' => s' | None => s end)).
  assert (HI : forall n, inv (run n)).
  { induction n as [|n IH]; [exact I0|]. destruct (Hst n _ IH) as (s' & E & I & _). cbn [run nat_rect]. fold (run n). now rewrite E. }
  assert (HS : forall n, step n (run n) = Some (run (S n)) /\ b (run n) <= b (run (S n))).
  { intros n. destruct (Hst n _ (HI n)) as (s' & E & _ & H). cbn [run nat_rect]. fold (run n). rewrite E. auto. }
  assert (Hg : Un_growing (fun n => b (run n))) by (intros n; apply HS).
  assert (Hb : has_ub (fun n => b (run n))) by (exists B; intros x (n & ->); apply HB, HI).
  destruct (growing_cv _ Hg Hb) as (L & HL). exists run, L.
  split; [reflexivity|]. split; [intros; apply HS|]. split; [exact HI|]. split; [|exact HL].
  intros n. split; [apply HS|]. apply (growing_ineq (fun n => b (run n)) L); auto.
Qed.

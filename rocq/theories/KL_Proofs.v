(** KL divergences of the exponential families are non-negative, and what this
    says about natural gradient steps. *)
From Coq Require Import Reals List Arith Bool Lia Lra.
From Verif Require Import Prelude Vec Gibbs Lgamma Dist_Model Dist_Spec Dist_Proofs NG_Proofs.
Import ListNotations.
Local Open Scope R_scope.

Lemma kl_div_dot n1 e n2 l1 l2 : kl_div n1 e n2 l1 l2 = l2 - l1 - dot e (vsub n2 n1).
Proof. reflexivity. Qed.

Lemma dot_vsub_nth N e n1 n2 : length e = N -> length n1 = N -> length n2 = N ->
  dot e (vsub n2 n1) = sumf (fun k => nth k e 0 * (nth k n2 0 - nth k n1 0)) (seq 0 N).
Proof.
  intros H1 H2 H3. rewrite dot_nth by (rewrite vsub_length; congruence). rewrite H1.
  apply sumf_ext. intros k Hk. apply in_seq in Hk. rewrite vsub_nth by lia. reflexivity.
Qed.

Lemma kl_self N n e l : length n = N -> length e = N -> kl_div n e n l l = 0.
Proof.
  intros H1 H2. rewrite kl_div_dot, (dot_vsub_nth N) by auto.
  rewrite sumf_zero; [lra|]. intros k _. ring.
Qed.

Lemma sumf_seq_shift (f : nat -> R) a n : sumf f (seq a n) = sumf (fun k => f (a + k)%nat) (seq 0 n).
Proof.
  revert a. induction n as [|n IH]; intros a; [reflexivity|].
  rewrite !seq_S, !sumf_app, IH. reflexivity.
Qed.

Lemma sumf_seq_split (f : nat -> R) n m :
  sumf f (seq 0 (n + m)) = sumf f (seq 0 n) + sumf (fun k => f (n + k)%nat) (seq 0 m).
Proof. rewrite seq_app, sumf_app. cbn [plus]. now rewrite (sumf_seq_shift f n m). Qed.

Lemma sumf_seq_2 (f : nat -> R) : sumf f (seq 0 2) = f 0%nat + f 1%nat.
Proof. unfold sumf. simpl. lra. Qed.

Lemma sumf_seq_3 (f : nat -> R) : sumf f (seq 0 3) = f 0%nat + f 1%nat + f 2%nat.
Proof. unfold sumf. simpl. lra. Qed.

(** ** Scalar KL terms *)
Definition gk (a b a' b' : R) : R :=
  lgamma a' - lgamma a - digamma a * (a' - a) - a' * (ln b' - ln b) + a * b' / b - a.

Lemma gk_nonneg a b a' b' : 0 < a -> 0 < b -> 0 < a' -> 0 < b' -> 0 <= gk a b a' b'.
Proof.
  intros Ha Hb Ha' Hb'. unfold gk.
  assert (T := lgamma_tangent a' a Ha' Ha). unfold bphi in T.
  assert (Hy : 0 < a * b' / b) by (apply Rdiv_lt_0_compat; auto; apply Rmult_lt_0_compat; auto).
  assert (B := bphi_nonneg a' (a * b' / b) Ha' Hy). unfold bphi in B.
  rewrite ln_div in T by auto. rewrite ln_div in B by auto.
  rewrite ln_div in B by (auto; apply Rmult_lt_0_compat; auto).
  rewrite ln_mult in B by auto.
  replace (a' * (ln a' - (ln a + ln b' - ln b))) with (a' * (ln a' - ln a) - a' * (ln b' - ln b)) in B by ring.
  lra.
Qed.

Lemma scale_kl_nonneg k k' : 0 < k -> 0 < k' -> 0 <= k' / k - 1 - (ln k' - ln k).
Proof.
  intros H H'. assert (L := ln_le_sub1 (k' / k) ltac:(now apply Rdiv_lt_0_compat)).
  rewrite ln_div in L by auto. lra.
Qed.

(** ** Gamma *)
Lemma gamma_ess_length d p : length (g_shape p) = d -> length (g_rate p) = d ->
  length (gamma_ess p) = (2 * d)%nat.
Proof. intros H1 H2. unfold gamma_ess. rewrite app_length, !map2_length. lia. Qed.

Lemma gamma_ess_1 d p k : length (g_shape p) = d -> length (g_rate p) = d -> (k < d)%nat ->
  nth k (gamma_ess p) 0 = nth k (g_shape p) 0 / nth k (g_rate p) 0.
Proof.
  intros H1 H2 H. unfold gamma_ess. rewrite nth_app_l by (rewrite map2_length; lia).
  rewrite map2_nth_R by lia. reflexivity.
Qed.

Lemma gamma_ess_2 d p k : length (g_shape p) = d -> length (g_rate p) = d -> (k < d)%nat ->
  nth (d + k) (gamma_ess p) 0 = digamma (nth k (g_shape p) 0) - ln (nth k (g_rate p) 0).
Proof.
  intros H1 H2 H. unfold gamma_ess. rewrite nth_app_r by (rewrite map2_length; lia).
  rewrite map2_nth_R by lia. reflexivity.
Qed.

Lemma gamma_log_norm_nth d p : length (g_shape p) = d -> length (g_rate p) = d ->
  gamma_log_norm p = sumf (fun k => lgamma (nth k (g_shape p) 0) - nth k (g_shape p) 0 * ln (nth k (g_rate p) 0)) (seq 0 d).
Proof.
  intros H1 H2. unfold gamma_log_norm. rewrite rsum_nth, map2_length, H1, H2, Nat.min_id.
  apply sumf_ext. intros k Hk. apply in_seq in Hk. rewrite map2_nth_R by lia. reflexivity.
Qed.

Lemma gamma_kl_sum d p q : gamma_ok d p -> gamma_ok d q ->
  gamma_kl p q = sumf (fun k => gk (nth k (g_shape p) 0) (nth k (g_rate p) 0)
                                   (nth k (g_shape q) 0) (nth k (g_rate q) 0)) (seq 0 d).
Proof.
  intros (P1 & P2 & P3 & P4) (Q1 & Q2 & Q3 & Q4). unfold gamma_kl.
  rewrite kl_div_dot, (dot_vsub_nth (d + d)).
  2:{ rewrite (gamma_ess_length d); auto; lia. }
  2:{ rewrite (gamma_nat_length d); auto; lia. }
  2:{ rewrite (gamma_nat_length d); auto; lia. }
  rewrite sumf_seq_split, !(gamma_log_norm_nth d) by auto.
  rewrite <- sumf_plus, <- !sumf_minus. apply sumf_ext. intros k Hk. apply in_seq in Hk.
  rewrite (gamma_ess_1 d), (gamma_ess_2 d) by (auto; lia).
  rewrite !(gamma_nat_2 d) by (auto; lia). rewrite !gamma_nat_1 by lia.
  assert (B0 := Forall_pos_nth _ k P4 ltac:(lia)).
  unfold gk. field. lra.
Qed.

Lemma gamma_kl_nonneg d p q : gamma_ok d p -> gamma_ok d q -> 0 <= gamma_kl p q.
Proof.
  intros Hp Hq. rewrite (gamma_kl_sum d) by auto.
  destruct Hp as (P1 & P2 & P3 & P4), Hq as (Q1 & Q2 & Q3 & Q4).
  apply sumf_nonneg. intros k Hk. apply in_seq in Hk.
  apply gk_nonneg; apply Forall_pos_nth; auto; lia.
Qed.

(** ** NormalGamma *)
Lemma ng_ess_length d p : length (ng_mean p) = d -> length (ng_rates p) = d ->
  length (ng_ess p) = (d + (d + 2))%nat.
Proof.
  intros H1 H2. unfold ng_ess. rewrite !app_length, map2_length, !map_length. simpl. lia.
Qed.

Lemma ng_ess_1 d p k : length (ng_mean p) = d -> length (ng_rates p) = d -> (k < d)%nat ->
  nth k (ng_ess p) 0 = ng_shape p / nth k (ng_rates p) 0 * nth k (ng_mean p) 0.
Proof.
  intros H1 H2 H. unfold ng_ess. rewrite nth_app_l by (rewrite map2_length, map_length; lia).
  rewrite map2_nth_R by (rewrite ?map_length; lia). rewrite map_nth_R by lia. reflexivity.
Qed.

Lemma ng_ess_2 d p k : length (ng_mean p) = d -> length (ng_rates p) = d -> (k < d)%nat ->
  nth (d + k) (ng_ess p) 0 = ng_shape p / nth k (ng_rates p) 0.
Proof.
  intros H1 H2 H. unfold ng_ess. rewrite nth_app_r by (rewrite map2_length, map_length; lia).
  rewrite nth_app_l by (rewrite map_length; lia). rewrite map_nth_R by lia. reflexivity.
Qed.

Lemma ng_ess_3 d p j : length (ng_mean p) = d -> length (ng_rates p) = d ->
  nth (d + (d + j)) (ng_ess p) 0 =
  nth j [sumf (fun k => ng_shape p / nth k (ng_rates p) 0 * nth k (ng_mean p) 0 ^ 2) (seq 0 d)
           + INR d / ng_scale p;
         sumf (fun k => digamma (ng_shape p) - ln (nth k (ng_rates p) 0)) (seq 0 d)] 0.
Proof.
  intros H1 H2. unfold ng_ess. rewrite nth_app_r by (rewrite map2_length, map_length; lia).
  rewrite nth_app_r by (rewrite map_length; lia). rewrite H1.
  assert (E1 : rsum (map2 (fun l m => l * m ^ 2) (map (fun b => ng_shape p / b) (ng_rates p)) (ng_mean p)) =
    sumf (fun k => ng_shape p / nth k (ng_rates p) 0 * nth k (ng_mean p) 0 ^ 2) (seq 0 d)).
  { rewrite rsum_nth, map2_length, map_length, H1, H2, Nat.min_id. apply sumf_ext.
    intros k Hk. apply in_seq in Hk. rewrite map2_nth_R by (rewrite ?map_length; lia).
    rewrite map_nth_R by lia. reflexivity. }
  assert (E2 : rsum (map (fun b => digamma (ng_shape p) - ln b) (ng_rates p)) =
    sumf (fun k => digamma (ng_shape p) - ln (nth k (ng_rates p) 0)) (seq 0 d)).
  { rewrite rsum_nth, map_length, H2. apply sumf_ext. intros k Hk. apply in_seq in Hk.
    rewrite map_nth_R by lia. reflexivity. }
  rewrite E1, E2. reflexivity.
Qed.

Lemma ng_log_norm_nth d p : length (ng_rates p) = d ->
  ng_log_norm p = sumf (fun k => lgamma (ng_shape p) - ng_shape p * ln (nth k (ng_rates p) 0)
                                 - 1/2 * ln (ng_scale p)) (seq 0 d).
Proof.
  intros H. unfold ng_log_norm. rewrite H, !sumf_minus, sumf_scal_l, !sumf_const, seq_length.
  rewrite rsum_nth, map_length, H.
  rewrite (sumf_ext (fun i => nth i (map ln (ng_rates p)) 0) (fun i => ln (nth i (ng_rates p) 0))).
  2:{ intros k Hk. apply in_seq in Hk. rewrite map_nth_R by lia. reflexivity. }
  ring.
Qed.

Definition ng_kl_term (p q : ng_par) (i : nat) : R :=
  gk (ng_shape p) (nth i (ng_rates p) 0) (ng_shape q) (nth i (ng_rates q) 0)
  + 1/2 * (ng_shape p / nth i (ng_rates p) 0) * ng_scale q * (nth i (ng_mean p) 0 - nth i (ng_mean q) 0) ^ 2
  + 1/2 * (ng_scale q / ng_scale p - 1 - (ln (ng_scale q) - ln (ng_scale p))).

Lemma ng_kl_sum d p q : ng_ok d p -> ng_ok d q ->
  ng_kl p q = sumf (ng_kl_term p q) (seq 0 d).
Proof.
  intros (P1 & P2 & P3 & P4 & P5) (Q1 & Q2 & Q3 & Q4 & Q5). unfold ng_kl.
  rewrite kl_div_dot, (dot_vsub_nth (d + (d + 2))).
  2:{ apply ng_ess_length; auto. }
  2:{ rewrite (ng_nat_length d); auto; lia. }
  2:{ rewrite (ng_nat_length d); auto; lia. }
  rewrite !sumf_seq_split, sumf_seq_2, !(ng_ess_3 d) by auto. cbn [nth].
  replace (d + (d + 0))%nat with (2 * d + 0)%nat by lia.
  replace (d + (d + 1))%nat with (2 * d + 1)%nat by lia.
  rewrite !ng_nat_3 by auto. cbn [nth].
  rewrite !(ng_log_norm_nth d) by auto.
  rewrite (sumf_ext (fun k => nth k (ng_ess p) 0 * (nth k (ng_nat q) 0 - nth k (ng_nat p) 0))
    (fun k => ng_shape p / nth k (ng_rates p) 0 * nth k (ng_mean p) 0 *
      (ng_scale q * nth k (ng_mean q) 0 - ng_scale p * nth k (ng_mean p) 0))).
  2:{ intros k Hk. apply in_seq in Hk. rewrite (ng_ess_1 d), !ng_nat_1 by (auto; lia). reflexivity. }
  rewrite (sumf_ext (fun k => nth (d + k) (ng_ess p) 0 * (nth (d + k) (ng_nat q) 0 - nth (d + k) (ng_nat p) 0))
    (fun k => ng_shape p / nth k (ng_rates p) 0 *
      (- (1/2) * ng_scale q * nth k (ng_mean q) 0 ^ 2 - nth k (ng_rates q) 0
       - (- (1/2) * ng_scale p * nth k (ng_mean p) 0 ^ 2 - nth k (ng_rates p) 0)))).
  2:{ intros k Hk. apply in_seq in Hk. rewrite (ng_ess_2 d), !(ng_nat_2 d) by (auto; lia). reflexivity. }
  assert (Ed : INR d / ng_scale p = sumf (fun _ => / ng_scale p) (seq 0 d)).
  { rewrite sumf_const, seq_length. reflexivity. }
  rewrite Ed, <- sumf_plus.
  rewrite (Rmult_comm (sumf _ _) (- (1/2) * ng_scale q - - (1/2) * ng_scale p)).
  rewrite (Rmult_comm (sumf _ _) (ng_shape q - 1/2 - (ng_shape p - 1/2))).
  rewrite <- !sumf_scal_l, <- !sumf_plus, <- !sumf_minus.
  apply sumf_ext. intros k Hk. apply in_seq in Hk.
  assert (B0 := Forall_pos_nth _ k P5 ltac:(lia)).
  unfold ng_kl_term, gk. field. lra.
Qed.

Lemma ng_kl_nonneg d p q : ng_ok d p -> ng_ok d q -> 0 <= ng_kl p q.
Proof.
  intros Hp Hq. rewrite (ng_kl_sum d) by auto.
  destruct Hp as (P1 & P2 & P3 & P4 & P5), Hq as (Q1 & Q2 & Q3 & Q4 & Q5).
  apply sumf_nonneg. intros k Hk. apply in_seq in Hk. unfold ng_kl_term.
  assert (B := Forall_pos_nth _ k P5 ltac:(lia)). assert (B' := Forall_pos_nth _ k Q5 ltac:(lia)).
  assert (G := gk_nonneg _ _ _ _ P4 B Q4 B'). assert (S := scale_kl_nonneg _ _ P3 Q3).
  assert (M : 0 <= ng_shape p / nth k (ng_rates p) 0 * ng_scale q * (nth k (ng_mean p) 0 - nth k (ng_mean q) 0) ^ 2).
  { apply Rmult_le_pos; [|apply pow2_ge_0]. apply Rmult_le_pos; [|lra].
    apply Rlt_le, Rdiv_lt_0_compat; auto. }
  lra.
Qed.

(** ** Isotropic NormalGamma *)
Lemma ig_ess_length p : length (ig_ess p) = (length (ig_mean p) + 3)%nat.
Proof. unfold ig_ess. rewrite app_length, map_length. reflexivity. Qed.

Lemma ig_ess_1 p k : (k < length (ig_mean p))%nat ->
  nth k (ig_ess p) 0 = ig_shape p / ig_rate p * nth k (ig_mean p) 0.
Proof.
  intros H. unfold ig_ess. rewrite nth_app_l by (rewrite map_length; auto). now rewrite map_nth_R.
Qed.

Lemma ig_ess_2 d p j : length (ig_mean p) = d ->
  nth (d + j) (ig_ess p) 0 =
  nth j [ig_shape p / ig_rate p;
         ig_shape p / ig_rate p * sqnorm (ig_mean p) + INR d / ig_scale p;
         digamma (ig_shape p) - ln (ig_rate p)] 0.
Proof. intros H. unfold ig_ess. rewrite nth_app_r by (rewrite map_length; auto). now rewrite H. Qed.

Lemma ig_kl_sum d p q : ig_ok d p -> ig_ok d q ->
  ig_kl p q = gk (ig_shape p) (ig_rate p) (ig_shape q) (ig_rate q)
    + 1/2 * (ig_shape p / ig_rate p) * ig_scale q
      * sumf (fun i => (nth i (ig_mean p) 0 - nth i (ig_mean q) 0) ^ 2) (seq 0 d)
    + 1/2 * INR d * (ig_scale q / ig_scale p - 1 - (ln (ig_scale q) - ln (ig_scale p))).
Proof.
  intros (P1 & P3 & P4 & P5) (Q1 & Q3 & Q4 & Q5). unfold ig_kl.
  rewrite kl_div_dot, (dot_vsub_nth (d + 3)) by (rewrite ?ig_ess_length, ?ig_nat_length; lia).
  rewrite sumf_seq_split, sumf_seq_3, !(ig_ess_2 d), !(ig_nat_2 d) by auto. cbn [nth].
  rewrite (sumf_ext (fun k => nth k (ig_ess p) 0 * (nth k (ig_nat q) 0 - nth k (ig_nat p) 0))
    (fun k => ig_shape p / ig_rate p * (ig_scale q * (nth k (ig_mean p) 0 * nth k (ig_mean q) 0)
                                        - ig_scale p * nth k (ig_mean p) 0 ^ 2))).
  2:{ intros k Hk. apply in_seq in Hk. rewrite ig_ess_1, !ig_nat_1 by lia. ring. }
  rewrite (sumf_ext (fun i => (nth i (ig_mean p) 0 - nth i (ig_mean q) 0) ^ 2)
    (fun i => nth i (ig_mean p) 0 ^ 2 - 2 * (nth i (ig_mean p) 0 * nth i (ig_mean q) 0) + nth i (ig_mean q) 0 ^ 2))
    by (intros; ring).
  unfold ig_log_norm. rewrite !sqnorm_nth, P1, Q1.
  rewrite sumf_scal_l, sumf_minus, !sumf_scal_l, sumf_plus, sumf_minus, sumf_scal_l.
  unfold gk. field. lra.
Qed.

Lemma ig_kl_nonneg d p q : ig_ok d p -> ig_ok d q -> 0 <= ig_kl p q.
Proof.
  intros Hp Hq. rewrite (ig_kl_sum d) by auto.
  destruct Hp as (P1 & P3 & P4 & P5), Hq as (Q1 & Q3 & Q4 & Q5).
  assert (G := gk_nonneg _ _ _ _ P4 P5 Q4 Q5). assert (S := scale_kl_nonneg _ _ P3 Q3).
  assert (M : 0 <= ig_shape p / ig_rate p * ig_scale q
      * sumf (fun i => (nth i (ig_mean p) 0 - nth i (ig_mean q) 0) ^ 2) (seq 0 d)).
  { apply Rmult_le_pos; [|apply sumf_nonneg; intros; apply pow2_ge_0]. apply Rmult_le_pos; [|lra].
    apply Rlt_le, Rdiv_lt_0_compat; auto. }
  assert (D : 0 <= INR d * (ig_scale q / ig_scale p - 1 - (ln (ig_scale q) - ln (ig_scale p))))
    by (apply Rmult_le_pos; [apply pos_INR|auto]).
  lra.
Qed.

(** ** Diagonal normal *)
Lemma ndc_kl_sum d p q : ndc_ok d p -> ndc_ok d q ->
  ndc_kl p q = sumf (fun i => 1/2 * ((nth i (nc_mean p) 0 - nth i (nc_mean q) 0) ^ 2 / nth i (nc_cov q) 0
     + (nth i (nc_cov p) 0 / nth i (nc_cov q) 0 - 1
        - (ln (nth i (nc_cov p) 0) - ln (nth i (nc_cov q) 0))))) (seq 0 d).
Proof.
  intros (P1 & P2 & P3) (Q1 & Q2 & Q3). unfold ndc_kl.
  assert (Ln : forall p, length (nc_mean p) = d -> length (nc_cov p) = d -> length (ndc_nat p) = (d + d)%nat).
  { intros r R1 R2. unfold ndc_nat. rewrite app_length, map2_length, map_length. lia. }
  rewrite kl_div_dot, (dot_vsub_nth (d + d)); auto.
  2:{ unfold ndc_ess. rewrite app_length, map2_length. lia. }
  rewrite sumf_seq_split.
  assert (N1 : forall p k, length (nc_mean p) = d -> length (nc_cov p) = d -> (k < d)%nat ->
    nth k (ndc_nat p) 0 = 1 / nth k (nc_cov p) 0 * nth k (nc_mean p) 0).
  { intros r k R1 R2 Hk. unfold ndc_nat. rewrite nth_app_l by (rewrite map2_length; lia).
    rewrite map2_nth_R by lia. reflexivity. }
  assert (N2 : forall p k, length (nc_mean p) = d -> length (nc_cov p) = d -> (k < d)%nat ->
    nth (d + k) (ndc_nat p) 0 = 1 / nth k (nc_cov p) 0).
  { intros r k R1 R2 Hk. unfold ndc_nat. rewrite nth_app_r by (rewrite map2_length; lia).
    rewrite map_nth_R by lia. reflexivity. }
  assert (L : forall p, length (nc_mean p) = d -> length (nc_cov p) = d -> ndc_log_norm p =
    sumf (fun k => 1/2 * (1 / nth k (nc_cov p) 0 * nth k (nc_mean p) 0 ^ 2) + 1/2 * ln (nth k (nc_cov p) 0)
                   + 1/2 * ln (2 * PI)) (seq 0 d)).
  { intros r R1 R2. unfold ndc_log_norm. rewrite R1, !sumf_plus, !sumf_scal_l, sumf_const, seq_length.
    rewrite !rsum_nth, map2_length, map_length, R1, R2, Nat.min_id.
    rewrite (sumf_ext (fun i => nth i (map ln (nc_cov r)) 0) (fun i => ln (nth i (nc_cov r) 0))).
    2:{ intros k Hk. apply in_seq in Hk. rewrite map_nth_R by lia. reflexivity. }
    rewrite (sumf_ext (fun i => nth i (map2 (fun m s => 1 / s * m ^ 2) (nc_mean r) (nc_cov r)) 0)
      (fun k => 1 / nth k (nc_cov r) 0 * nth k (nc_mean r) 0 ^ 2)).
    2:{ intros k Hk. apply in_seq in Hk. rewrite map2_nth_R by lia. reflexivity. }
    ring. }
  rewrite !L by auto.
  rewrite (sumf_ext (fun k => nth k (ndc_ess p) 0 * (nth k (ndc_nat q) 0 - nth k (ndc_nat p) 0))
    (fun k => nth k (nc_mean p) 0 * (1 / nth k (nc_cov q) 0 * nth k (nc_mean q) 0
                                     - 1 / nth k (nc_cov p) 0 * nth k (nc_mean p) 0))).
  2:{ intros k Hk. apply in_seq in Hk. rewrite !N1 by (auto; lia). unfold ndc_ess.
      rewrite nth_app_l by lia. reflexivity. }
  rewrite (sumf_ext (fun k => nth (d + k) (ndc_ess p) 0 * (nth (d + k) (ndc_nat q) 0 - nth (d + k) (ndc_nat p) 0))
    (fun k => - (1/2) * (nth k (nc_cov p) 0 + nth k (nc_mean p) 0 ^ 2) *
              (1 / nth k (nc_cov q) 0 - 1 / nth k (nc_cov p) 0))).
  2:{ intros k Hk. apply in_seq in Hk. rewrite !N2 by (auto; lia). unfold ndc_ess.
      rewrite nth_app_r by lia. rewrite map2_nth_R by lia. reflexivity. }
  rewrite <- sumf_plus, <- !sumf_minus. apply sumf_ext. intros k Hk. apply in_seq in Hk.
  assert (B := Forall_pos_nth _ k P3 ltac:(lia)). assert (B' := Forall_pos_nth _ k Q3 ltac:(lia)).
  field. lra.
Qed.

Lemma ndc_kl_nonneg d p q : ndc_ok d p -> ndc_ok d q -> 0 <= ndc_kl p q.
Proof.
  intros Hp Hq. rewrite (ndc_kl_sum d) by auto.
  destruct Hp as (P1 & P2 & P3), Hq as (Q1 & Q2 & Q3).
  apply sumf_nonneg. intros k Hk. apply in_seq in Hk.
  assert (B := Forall_pos_nth _ k P3 ltac:(lia)). assert (B' := Forall_pos_nth _ k Q3 ltac:(lia)).
  assert (S := scale_kl_nonneg _ _ B' B).
  assert (M : 0 <= (nth k (nc_mean p) 0 - nth k (nc_mean q) 0) ^ 2 / nth k (nc_cov q) 0).
  { apply Rmult_le_pos; [apply pow2_ge_0|]. apply Rlt_le, Rinv_0_lt_compat, B'. }
  lra.
Qed.

(** ** Dirichlet *)
Definition dkl (a b : list R) : R :=
  (rsum (map lgamma b) - lgamma (rsum b)) - (rsum (map lgamma a) - lgamma (rsum a))
  - rsum (map2 (fun x y => (digamma x - digamma (rsum a)) * (y - x)) a b).

Lemma rsum_pos_ne l : l <> [] -> Forall (fun x => 0 < x) l -> 0 < rsum l.
Proof.
  intros Hne H. induction H as [|x l Hx H IH]; [congruence|]. simpl.
  destruct l as [|y l]; [simpl; lra|]. assert (0 < rsum (y :: l)) by (apply IH; discriminate). lra.
Qed.

Lemma rsum_map2_lin (f : R -> R) c a b : length a = length b ->
  rsum (map2 (fun x y => (f x - c) * (y - x)) a b) =
  rsum (map2 (fun x y => f x * (y - x)) a b) - c * (rsum b - rsum a).
Proof.
  revert b. induction a as [|x a IH]; intros [|y b] H; simpl in *; try discriminate; [lra|].
  rewrite IH by congruence. ring.
Qed.

Lemma dkl_nonneg a b : a <> [] -> length a = length b ->
  Forall (fun x => 0 < x) a -> Forall (fun x => 0 < x) b -> 0 <= dkl a b.
Proof.
  revert b. induction a as [|x a IH]; intros b Hne Hl Ha Hb; [congruence|].
  destruct b as [|y b]; [discriminate|]. apply Forall_cons_iff in Ha, Hb.
  destruct Ha as [Hx Ha], Hb as [Hy Hb]. simpl in Hl. injection Hl as Hl.
  destruct a as [|x2 a].
  { destruct b; [|discriminate]. unfold dkl. simpl. rewrite !Rplus_0_r. lra. }
  assert (I := IH b ltac:(discriminate) Hl Ha Hb).
  assert (A0 : 0 < rsum (x2 :: a)) by (apply rsum_pos_ne; [discriminate|auto]).
  assert (B0 : 0 < rsum b) by (apply rsum_pos_ne; [destruct b; [discriminate|congruence]|auto]).
  assert (T := beta_tangent y (rsum b) x (rsum (x2 :: a)) Hy B0 Hx A0).
  remember (x2 :: a) as l. unfold dkl in *.
  change (rsum (x :: l)) with (x + rsum l). change (rsum (y :: b)) with (y + rsum b).
  change (map lgamma (x :: l)) with (lgamma x :: map lgamma l).
  change (map lgamma (y :: b)) with (lgamma y :: map lgamma b).
  change (rsum (lgamma x :: map lgamma l)) with (lgamma x + rsum (map lgamma l)).
  change (rsum (lgamma y :: map lgamma b)) with (lgamma y + rsum (map lgamma b)).
  change (map2 (fun x0 y0 => (digamma x0 - digamma (x + rsum l)) * (y0 - x0)) (x :: l) (y :: b))
    with ((digamma x - digamma (x + rsum l)) * (y - x) ::
          map2 (fun x0 y0 => (digamma x0 - digamma (x + rsum l)) * (y0 - x0)) l b).
  change (rsum ((digamma x - digamma (x + rsum l)) * (y - x) ::
          map2 (fun x0 y0 => (digamma x0 - digamma (x + rsum l)) * (y0 - x0)) l b))
    with ((digamma x - digamma (x + rsum l)) * (y - x) +
          rsum (map2 (fun x0 y0 => (digamma x0 - digamma (x + rsum l)) * (y0 - x0)) l b)).
  rewrite (rsum_map2_lin digamma) in I by auto. rewrite (rsum_map2_lin digamma) by auto.
  lra.
Qed.

Lemma dir_ess_length a : a <> [] -> length (dir_ess a) = length a.
Proof.
  intros H. unfold dir_ess. rewrite app_length, map_length, removelast_length. simpl.
  destruct a; [congruence|simpl; lia].
Qed.

Lemma dir_kl_dkl a b : a <> [] -> length a = length b -> dir_kl a b = dkl a b.
Proof.
  intros Hne Hl. unfold dir_kl, dkl. rewrite kl_div_dot. unfold dir_log_norm.
  assert (Hnb : b <> []) by (destruct a, b; simpl in *; congruence).
  f_equal.
  set (d := length a). assert (Hd : (0 < d)%nat) by (unfold d; destruct a; simpl; [congruence|lia]).
  rewrite (dot_vsub_nth d) by (rewrite ?dir_ess_length, ?dir_nat_length by auto; auto).
  rewrite (seq_pred_split _ d) by auto.
  assert (E1 := dir_nat_last a). assert (E2 := dir_nat_last b). rewrite <- Hl in E2. fold d in E1, E2.
  rewrite E1, E2, <- sumf_minus.
  assert (Ee : nth (pred d) (dir_ess a) 0 = digamma (last a 0) - digamma (rsum a)).
  { unfold dir_ess. rewrite app_nth2; rewrite map_length, removelast_length; fold d; [|lia].
    rewrite Nat.sub_diag. reflexivity. }
  rewrite Ee.
  rewrite (sumf_ext (fun k => nth k (dir_ess a) 0 * (nth k (dir_nat b) 0 - nth k (dir_nat a) 0))
    (fun k => (digamma (nth k a 0) - digamma (last a 0)) * (nth k b 0 - nth k a 0))).
  2:{ intros k Hk. apply in_seq in Hk. rewrite !dir_nat_nth by (rewrite <- ?Hl; fold d; lia).
      unfold dir_ess. rewrite nth_app_l by (rewrite map_length, removelast_length; fold d; lia).
      rewrite map_nth_R by (rewrite removelast_length; fold d; lia).
      rewrite removelast_nth by (fold d; lia). ring. }
  rewrite (rsum_nth (map2 _ a b)), map2_length, <- Hl, Nat.min_id. fold d.
  rewrite (sumf_ext (fun i => nth i (map2 _ a b) 0)
    (fun i => (digamma (nth i a 0) - digamma (rsum a)) * (nth i b 0 - nth i a 0))).
  2:{ intros k Hk. apply in_seq in Hk. rewrite map2_nth_R by (rewrite <- ?Hl; fold d; lia). reflexivity. }
  rewrite !(seq_pred_split _ d) by auto. rewrite last_nth. fold d.
  set (la := nth (pred d) a 0). set (lb := nth (pred d) b 0).
  rewrite (sumf_ext (fun k => (digamma (nth k a 0) - digamma la) * (nth k b 0 - nth k a 0))
    (fun k => (digamma (nth k a 0) - digamma (rsum a)) * (nth k b 0 - nth k a 0)
              + (digamma (rsum a) - digamma la) * (nth k b 0 - 1 - (nth k a 0 - 1)))) by (intros; ring).
  rewrite sumf_plus, sumf_scal_l. ring.
Qed.

Lemma dir_kl_nonneg d a b : dir_ok d a -> dir_ok d b -> 0 <= dir_kl a b.
Proof.
  intros (A1 & A2 & A3) (B1 & B2 & B3).
  assert (a <> []) by (destruct a; simpl in *; [lia|congruence]).
  rewrite dir_kl_dkl by congruence. apply dkl_nonneg; congruence.
Qed.

(** ** Natural gradient steps and the bound *)
Section Bound.
  Context {P : Type} (nat_of ess : P -> list R) (log_norm : P -> R) (from_nat : list R -> P).
  Variables (ok : P -> Prop) (N : nat).
  Let kl (p q : P) : R := kl_div (nat_of p) (ess p) (nat_of q) (log_norm p) (log_norm q).
  Hypothesis Hn : forall p, ok p -> length (nat_of p) = N.
  Hypothesis He : forall p, ok p -> length (ess p) = N.
  Hypothesis Hkl : forall p q, ok p -> ok q -> 0 <= kl p q.
  Hypothesis Hrt : forall p, ok p -> from_nat (nat_of p) = p.
  (* natural parameters of a mixture of natural parameters *)
  Hypothesis Hmix_ok : forall l p q, ok p -> ok q -> 0 <= l <= 1 ->
    ok (from_nat (vadd (nat_of p) (vscale l (vsub (nat_of q) (nat_of p))))).
  Hypothesis Hmix_nat : forall l p q, ok p -> ok q -> 0 <= l <= 1 ->
    nat_of (from_nat (vadd (nat_of p) (vscale l (vsub (nat_of q) (nat_of p))))) =
    vadd (nat_of p) (vscale l (vsub (nat_of q) (nat_of p))).

  Variables (prior post full : P) (stats : list R) (lrate : R).
  Hypotheses (O1 : ok prior) (O2 : ok post) (O3 : ok full) (Hs : length stats = N)
             (Hf : nat_of full = vadd (nat_of prior) stats) (Hl : 0 <= lrate <= 1).

  Let dd (p q : P) : R := sumf (fun k => nth k (ess p) 0 * nth k (nat_of q) 0) (seq 0 N).

  Lemma bound_kl_form p q : ok p -> ok q -> kl p q = log_norm q - log_norm p - (dd p q - dd p p).
  Proof.
    intros Hp Hq. unfold kl, dd. rewrite kl_div_dot, (dot_vsub_nth N) by auto.
    rewrite <- sumf_minus. f_equal. apply sumf_ext. intros; ring.
  Qed.

  (** The bound is a constant minus the divergence to the full step. *)
  Lemma bound_elbo_form p : ok p ->
    elbo_of nat_of ess log_norm prior stats p = log_norm full - log_norm prior - kl p full.
  Proof.
    intros Hp. unfold elbo_of. fold (kl p prior). rewrite !bound_kl_form by auto.
    unfold dd. rewrite dot_nth by (rewrite He; auto). rewrite Hs.
    rewrite (sumf_ext (fun k => nth k (ess p) 0 * nth k (nat_of full) 0)
      (fun k => nth k (ess p) 0 * nth k (nat_of prior) 0 + nth k stats 0 * nth k (ess p) 0)).
    - rewrite sumf_plus. ring.
    - intros k Hk. apply in_seq in Hk. rewrite Hf, vadd_nth by (rewrite ?Hn; auto; lia). ring.
  Qed.

  Lemma bound_full_is_max p : ok p ->
    elbo_of nat_of ess log_norm prior stats p <= elbo_of nat_of ess log_norm prior stats full.
  Proof.
    intros Hp. rewrite !bound_elbo_form by auto.
    assert (H1 := Hkl p full Hp O3).
    assert (H2 : kl full full = 0) by (apply (kl_self N); auto). lra.
  Qed.

  Lemma bound_step_is_mix : std_update nat_of from_nat lrate prior post stats =
    from_nat (vadd (nat_of post) (vscale lrate (vsub (nat_of full) (nat_of post)))).
  Proof. unfold std_update. now rewrite Hf. Qed.

  Lemma bound_step_not_worse :
    elbo_of nat_of ess log_norm prior stats post <=
    elbo_of nat_of ess log_norm prior stats (std_update nat_of from_nat lrate prior post stats).
  Proof.
    rewrite bound_step_is_mix. set (q := from_nat _).
    assert (Oq : ok q) by (apply Hmix_ok; auto).
    rewrite !bound_elbo_form by auto.
    assert (En : forall k, (k < N)%nat -> nth k (nat_of q) 0 =
      (1 - lrate) * nth k (nat_of post) 0 + lrate * nth k (nat_of full) 0).
    { intros k Hk. unfold q. rewrite Hmix_nat by auto.
      apply vlin_nth; rewrite !Hn by auto; auto. }
    assert (K1 := Hkl post q O2 Oq). assert (K2 := Hkl q post Oq O2).
    rewrite bound_kl_form in K1, K2 by auto. rewrite !bound_kl_form by auto.
    assert (D1 : dd post q = (1 - lrate) * dd post post + lrate * dd post full).
    { unfold dd. rewrite <- !sumf_scal_l, <- sumf_plus. apply sumf_ext.
      intros k Hk. apply in_seq in Hk. rewrite En by lia. ring. }
    assert (D2 : dd q q = (1 - lrate) * dd q post + lrate * dd q full).
    { unfold dd. rewrite <- !sumf_scal_l, <- sumf_plus. apply sumf_ext.
      intros k Hk. apply in_seq in Hk. rewrite En by lia. ring. }
    rewrite D1 in K1. rewrite D2 in K2. rewrite D2.
    (* derivatives of the log-normaliser along the segment *)
    set (g0 := dd post full - dd post post). set (g1 := dd q full - dd q post).
    assert (K1' : 0 <= log_norm q - log_norm post - lrate * g0) by (unfold g0; lra).
    assert (K2' : 0 <= log_norm post - log_norm q + lrate * g1) by (unfold g1; lra).
    replace (dd q full - ((1 - lrate) * dd q post + lrate * dd q full)) with ((1 - lrate) * g1)
      by (unfold g1; ring).
    replace (dd post full - dd post post) with g0 by reflexivity.
    destruct (Req_dec lrate 0) as [E|E].
    - assert (Q : q = post).
      { unfold q. rewrite E. transitivity (from_nat (nat_of post)); [f_equal|apply Hrt, O2].
        apply vec_ext; [rewrite vlin_length; rewrite !Hn; auto|].
        intros k Hk. rewrite vlin_length in Hk by (rewrite !Hn; auto).
        rewrite vlin_nth by (rewrite ?Hn; auto; rewrite Hn in Hk; auto). ring. }
      unfold g1, g0. rewrite Q, E. lra.
    - assert (G : g0 <= g1).
      { apply Rmult_le_reg_l with lrate; lra. }
      assert ((1 - lrate) * g0 <= (1 - lrate) * g1) by (apply Rmult_le_compat_l; lra). lra.
  Qed.
End Bound.

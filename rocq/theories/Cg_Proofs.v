(** Natural gradient steps with partial learning rates converge geometrically. *)
From Coq Require Import Reals List Arith Lia Lra.
From Verif Require Import Prelude Vec Lgamma Gibbs Dist_Model Dist_Spec Dist_Proofs NG_Proofs KL_Proofs Dist_Props Cg_Spec.
Import ListNotations.
Local Open Scope R_scope.

Lemma left_over_range rates : Forall (fun r => 0 <= r <= 1) rates -> 0 <= left_over rates <= 1.
Proof.
  induction 1 as [|r l Hr Hl IH]; cbn; [lra|]. fold (left_over l). split; [apply Rmult_le_pos; lra|].
  apply Rle_trans with (1 * 1); [apply Rmult_le_compat; lra|lra].
Qed.

Section Steps.
  Context {P : Type} (nat_of ess : P -> list R) (log_norm : P -> R) (from_nat : list R -> P).
  Variables (ok : P -> Prop) (N : nat).
  Let kl (p q : P) : R := kl_div (nat_of p) (ess p) (nat_of q) (log_norm p) (log_norm q).
  Hypothesis Hn : forall p, ok p -> length (nat_of p) = N.
  Hypothesis He : forall p, ok p -> length (ess p) = N.
  Hypothesis Hkl : forall p q, ok p -> ok q -> 0 <= kl_div (nat_of p) (ess p) (nat_of q) (log_norm p) (log_norm q).
  Hypothesis Hrt : forall p, ok p -> from_nat (nat_of p) = p.
  Hypothesis Hmix_ok : forall l p q, ok p -> ok q -> 0 <= l <= 1 ->
    ok (from_nat (vadd (nat_of p) (vscale l (vsub (nat_of q) (nat_of p))))).
  Hypothesis Hmix_nat : forall l p q, ok p -> ok q -> 0 <= l <= 1 ->
    nat_of (from_nat (vadd (nat_of p) (vscale l (vsub (nat_of q) (nat_of p))))) =
    vadd (nat_of p) (vscale l (vsub (nat_of q) (nat_of p))).

  Variables (prior full : P) (stats : list R).
  Hypotheses (O1 : ok prior) (O3 : ok full) (Hs : length stats = N)
             (Hf : nat_of full = vadd (nat_of prior) stats).

  Definition steps (rates : list R) (post : P) : P :=
    fold_left (fun q r => std_update nat_of from_nat r prior q stats) rates post.

  Lemma steps_spec rates : Forall (fun r => 0 <= r <= 1) rates -> forall post, ok post ->
    ok (steps rates post) /\ forall k, (k < N)%nat ->
      nth k (nat_of (steps rates post)) 0 =
      nth k (nat_of full) 0 + left_over rates * (nth k (nat_of post) 0 - nth k (nat_of full) 0).
  Proof.
    induction 1 as [|r rates Hr Hrs IH]; intros post O2; cbn [steps fold_left left_over fold_right].
    - split; [exact O2|]. intros; ring.
    - fold (left_over rates). set (q := std_update nat_of from_nat r prior post stats).
      assert (Eq : q = from_nat (vadd (nat_of post) (vscale r (vsub (nat_of full) (nat_of post)))))
        by (unfold q, std_update; now rewrite Hf).
      assert (Oq : ok q) by (rewrite Eq; now apply Hmix_ok).
      assert (En : forall k, (k < N)%nat -> nth k (nat_of q) 0 =
        (1 - r) * nth k (nat_of post) 0 + r * nth k (nat_of full) 0).
      { intros k Hk. rewrite Eq, Hmix_nat by auto. apply vlin_nth; rewrite !Hn by auto; auto. }
      destruct (IH q Oq) as [A B]. split; [exact A|]. intros k Hk. fold (steps rates q). rewrite B, En by auto. ring.
  Qed.

  Let dd (p q : P) : R := sumf (fun k => nth k (ess p) 0 * nth k (nat_of q) 0) (seq 0 N).

  Lemma steps_gap rates post : Forall (fun r => 0 <= r <= 1) rates -> ok post ->
    0 <= kl (steps rates post) full <= left_over rates * (kl post full + kl full post).
  Proof.
    intros Hr O2. destruct (steps_spec rates Hr post O2) as [Oq Eq]. set (q := steps rates post) in *.
    assert (Ht := left_over_range rates Hr). set (t := left_over rates) in *.
    split; [now apply Hkl|].
    assert (F : forall p r, ok p -> ok r -> kl p r = log_norm r - log_norm p - (dd p r - dd p p)).
    { intros p r Op Or. unfold kl, dd. rewrite kl_div_dot, (dot_vsub_nth N) by auto.
      rewrite <- sumf_minus. f_equal. apply sumf_ext. intros; ring. }
    assert (L : forall p, dd p q = dd p full + t * (dd p post - dd p full)).
    { intros p. unfold dd. rewrite <- sumf_minus, <- sumf_scal_l, <- sumf_plus. apply sumf_ext.
      intros k Hk. apply in_seq in Hk. rewrite Eq by lia. ring. }
    assert (K1 := Hkl q post Oq O2). assert (K2 := Hkl post q O2 Oq). assert (K3 := Hkl full q O3 Oq).
    assert (K4 := Hkl full post O3 O2).
    fold (kl q post) in K1. fold (kl post q) in K2. fold (kl full q) in K3. fold (kl full post) in K4.
    destruct (Req_dec t 1) as [E|E].
    - assert (Q : q = post).
      { rewrite <- (Hrt q Oq), <- (Hrt post O2). f_equal. apply vec_ext; [now rewrite !Hn|].
        intros k Hk. rewrite Hn in Hk by auto. rewrite Eq, E by auto. ring. }
      rewrite Q, E. lra.
    - rewrite F in K1, K2, K3 by auto. rewrite !F by auto.
      assert (L1 := L q). assert (L2 := L post). assert (L3 := L full).
      set (g0 := dd full post - dd full full). set (g1 := dd post post - dd post full).
      set (gq := dd q post - dd q full).
      assert (G : gq <= g1).
      { apply Rmult_le_reg_l with (1 - t); [lra|]. unfold gq, g1. rewrite L1 in K1. rewrite L2 in K2. lra. }
      assert (X : t * gq <= t * g1) by (apply Rmult_le_compat_l; lra).
      subst g0 g1 gq. rewrite L3 in K3. rewrite L1. lra.
  Qed.

  (** The bound after the steps, and its limit *)
  Lemma steps_elbo rates post : Forall (fun r => 0 <= r <= 1) rates -> ok post ->
    0 <= log_norm full - log_norm prior - elbo_of nat_of ess log_norm prior stats (steps rates post)
      <= left_over rates * (kl post full + kl full post).
  Proof.
    intros Hr O2. destruct (steps_spec rates Hr post O2) as [Oq _].
    rewrite (bound_elbo_form nat_of ess log_norm ok N Hn He prior full stats) by auto.
    fold (kl (steps rates post) full). assert (G := steps_gap rates post Hr O2). lra.
  Qed.

  Lemma steps_mono rates r post : Forall (fun r => 0 <= r <= 1) rates -> 0 <= r <= 1 -> ok post ->
    elbo_of nat_of ess log_norm prior stats (steps rates post) <=
    elbo_of nat_of ess log_norm prior stats (steps (rates ++ [r]) post).
  Proof.
    intros Hr Hr1 O2. destruct (steps_spec rates Hr post O2) as [Oq _].
    unfold steps at 2. rewrite fold_left_app. cbn [fold_left]. fold (steps rates post).
    apply (bound_step_not_worse nat_of ess log_norm from_nat ok N Hn He Hkl Hrt Hmix_ok Hmix_nat) with (full := full); auto.
  Qed.
End Steps.

(** With a constant positive rate the distance to the limit vanishes. *)
Lemma geometric_limit (f : nat -> R) (best J r : R) : 0 < r <= 1 ->
  (forall n, 0 <= best - f n <= left_over (repeat r n) * J) -> Un_cv f best.
Proof.
  intros Hr H. 
  assert (E : forall n, left_over (repeat r n) = (1 - r) ^ n).
  { induction n as [|n IH]; [reflexivity|]. cbn [repeat left_over fold_right pow]. fold (left_over (repeat r n)). now rewrite IH. }
  assert (J0 : 0 <= J). { assert (A := H 0%nat). cbn in A. lra. }
  intros eps He. assert (Hq : Rabs (1 - r) < 1) by (rewrite Rabs_right; lra).
  destruct (pow_lt_1_zero (1 - r) Hq (eps / (J + 1))) as (n0 & Hn0); [apply Rdiv_lt_0_compat; lra|].
  exists n0. intros n Hn. unfold R_dist. assert (A := H n). rewrite E in A.
  assert (B := Hn0 n Hn). assert (C : 0 <= (1 - r) ^ n) by (apply pow_le; lra).
  rewrite Rabs_right in B by lra. rewrite Rabs_left1 by lra.
  apply Rle_lt_trans with ((1 - r) ^ n * J); [lra|].
  apply Rle_lt_trans with ((1 - r) ^ n * (J + 1)); [apply Rmult_le_compat_l; lra|].
  apply Rmult_lt_reg_r with (/ (J + 1)); [apply Rinv_0_lt_compat; lra|].
  replace ((1 - r) ^ n * (J + 1) * / (J + 1)) with ((1 - r) ^ n) by (field; lra). exact B.
Qed.

Lemma repeat_ok r n : 0 <= r <= 1 -> Forall (fun r => 0 <= r <= 1) (repeat r n).
Proof. intros Hr. apply Forall_forall. intros x Hx. apply repeat_spec in Hx. now subst. Qed.

Lemma steps_all {P : Type} (nat_of ess : P -> list R) log_norm from_nat (ok : P -> Prop) N prior full stats post (o : P -> R) c :
  (forall p, ok p -> length (nat_of p) = N) -> (forall p, ok p -> length (ess p) = N) ->
  (forall p q, ok p -> ok q -> 0 <= kl_div (nat_of p) (ess p) (nat_of q) (log_norm p) (log_norm q)) ->
  (forall p, ok p -> from_nat (nat_of p) = p) ->
  (forall l p q, ok p -> ok q -> 0 <= l <= 1 ->
    ok (from_nat (vadd (nat_of p) (vscale l (vsub (nat_of q) (nat_of p)))))) ->
  (forall l p q, ok p -> ok q -> 0 <= l <= 1 ->
    nat_of (from_nat (vadd (nat_of p) (vscale l (vsub (nat_of q) (nat_of p))))) =
    vadd (nat_of p) (vscale l (vsub (nat_of q) (nat_of p)))) ->
  ok prior -> ok full -> length stats = N -> nat_of full = vadd (nat_of prior) stats -> ok post ->
  (forall q, ok q -> o q = elbo_of nat_of ess log_norm prior stats q - c) ->
  let kl p q := kl_div (nat_of p) (ess p) (nat_of q) (log_norm p) (log_norm q) in
  let after rs := steps nat_of from_nat prior stats rs post in
  let le := log_norm full - log_norm prior - c in
  forall rates, Forall (fun r => 0 <= r <= 1) rates ->
  ok (after rates) /\
  0 <= le - o (after rates) <= left_over rates * (kl post full + kl full post) /\
  (forall r, 0 <= r <= 1 -> o (after rates) <= o (after (rates ++ [r]))) /\
  (forall r, 0 < r <= 1 -> Un_cv (fun n => o (after (repeat r n))) le).
Proof.
  intros Hn He Hkl Hrt Hmo Hmn O1 O3 Hs Hf O2 Ho kl after le rates Hr.
  assert (Sp : forall rs, Forall (fun r => 0 <= r <= 1) rs -> ok (after rs)).
  { intros rs Hrs. apply (steps_spec nat_of from_nat ok N) with (full := full); auto. }
  assert (G : forall rs, Forall (fun r => 0 <= r <= 1) rs ->
    0 <= le - o (after rs) <= left_over rs * (kl post full + kl full post)).
  { intros rs Hrs. rewrite Ho by auto. unfold le.
    assert (X := steps_elbo nat_of ess log_norm from_nat ok N Hn He Hkl Hrt Hmo Hmn prior full stats O1 O3 Hs Hf rs post Hrs O2).
    change (0 <= log_norm full - log_norm prior - elbo_of nat_of ess log_norm prior stats (after rs)
      <= left_over rs * (kl post full + kl full post)) in X.
    set (B := left_over rs * _) in *. lra. }
  split; [auto|]. split; [auto|]. split.
  - intros r Hr1. rewrite !Ho by (apply Sp; auto; apply Forall_app; auto). apply Rplus_le_compat_r.
    apply (steps_mono nat_of ess log_norm from_nat ok N) with (full := full); auto.
  - intros r Hr1. eapply geometric_limit; [exact Hr1|]. intros n. apply G, repeat_ok. lra.
Qed.

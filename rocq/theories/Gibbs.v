(** Gibbs' inequality and relatives. *)
From Coq Require Import List Arith Reals Lra.
From Verif Require Import Prelude.
Import ListNotations.
Local Open Scope R_scope.

Lemma ln_le_sub1 x : 0 < x -> ln x <= x - 1.
Proof.
  intros H. assert (E := exp_ineq1_le (ln x)). rewrite exp_ln in E by auto. lra.
Qed.

Lemma ln_mono x y : 0 < x -> x <= y -> ln x <= ln y.
Proof. intros H [H1|H1]; [left; now apply ln_increasing|subst; lra]. Qed.

Lemma ln_div x y : 0 < x -> 0 < y -> ln (x / y) = ln x - ln y.
Proof.
  intros H1 H2. unfold Rdiv. rewrite ln_mult, ln_Rinv; auto. now apply Rinv_0_lt_compat.
Qed.

(** p ln (q / p) <= q - p *)
Lemma gibbs_term p q : 0 <= p -> 0 < q -> p * (ln q - ln p) <= q - p.
Proof.
  intros [Hp|Hp] Hq; [|subst; lra].
  assert (H := ln_le_sub1 (q / p) ltac:(now apply Rdiv_lt_0_compat)).
  rewrite <- ln_div by auto. apply Rmult_le_compat_l with (r := p) in H; [|lra].
  replace (p * (q / p - 1)) with (q - p) in H by (field; lra). exact H.
Qed.

Lemma gibbs {A} (p q : A -> R) l :
  (forall x, In x l -> 0 <= p x) -> (forall x, In x l -> 0 < q x) ->
  sumf (fun x => p x * (ln (q x) - ln (p x))) l <= sumf q l - sumf p l.
Proof.
  intros Hp Hq. rewrite <- sumf_minus. apply sumf_le. intros x Hx.
  apply gibbs_term; auto.
Qed.

Lemma ln2_pos : 0 < ln 2.
Proof. rewrite <- ln_1. apply ln_increasing; lra. Qed.

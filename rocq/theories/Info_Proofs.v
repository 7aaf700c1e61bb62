(** Proofs about the entropies of nmi.py and entropy_rate.py. *)
From Coq Require Import List Arith Bool Lia Reals Lra Permutation.
From Verif Require Import Prelude Gibbs Edit_Model Dec_Model Map_Model Map_Spec.
Import ListNotations.
Local Open Scope R_scope.

Section NMI.
Variables (eps : R) (X Y : list nat) (c : nat -> nat -> R).
Hypothesis Heps : 0 < eps.
Hypothesis HX : X <> [].
Hypothesis HY : Y <> [].
Hypothesis Hc : forall a b, In a X -> In b Y -> 0 < c a b.

Lemma sumf_pos_all {A} (f : A -> R) l : l <> [] -> (forall x, In x l -> 0 < f x) -> 0 < sumf f l.
Proof.
  intros Hl H. destruct l as [|x l]; [congruence|]. rewrite sumf_cons.
  assert (0 <= sumf f l) by (apply sumf_nonneg; intros; left; apply H; now right).
  specialize (H x (or_introl eq_refl)). lra.
Qed.

Lemma row_pos a : In a X -> 0 < row Y c a.
Proof. intros Ha. apply sumf_pos_all; auto. Qed.
Lemma col_pos b : In b Y -> 0 < col X c b.
Proof. intros Hb. apply sumf_pos_all; auto. Qed.
Lemma tot_pos : 0 < tot X Y c.
Proof. apply sumf_pos_all; auto. intros; now apply row_pos. Qed.
Lemma tot_col : tot X Y c = sumf (col X c) Y.
Proof. unfold tot, row, col. apply sumf_swap. Qed.

Lemma pX_pos a : In a X -> 0 < p_X X Y c a.
Proof. intros. apply Rdiv_lt_0_compat; [now apply row_pos|apply tot_pos]. Qed.
Lemma pY_pos b : In b Y -> 0 < p_Y X Y c b.
Proof. intros. apply Rdiv_lt_0_compat; [now apply col_pos|apply tot_pos]. Qed.
Lemma pXY_pos a b : In a X -> In b Y -> 0 < p_X_Y X Y c a b.
Proof. intros. apply Rdiv_lt_0_compat; [now apply Hc|apply tot_pos]. Qed.

Lemma sum_pX : sumf (p_X X Y c) X = 1.
Proof.
  unfold p_X, Rdiv. rewrite sumf_scal_r. apply Rinv_r.
  assert (H := tot_pos). unfold tot in *. lra.
Qed.
Lemma sum_pY : sumf (p_Y X Y c) Y = 1.
Proof.
  unfold p_Y, Rdiv. rewrite sumf_scal_r, <- tot_col. apply Rinv_r.
  assert (H := tot_pos). lra.
Qed.
Lemma marg_X a : sumf (fun b => p_X_Y X Y c a b) Y = p_X X Y c a.
Proof. unfold p_X_Y, p_X, Rdiv. now rewrite sumf_scal_r. Qed.
Lemma marg_Y b : sumf (fun a => p_X_Y X Y c a b) X = p_Y X Y c b.
Proof. unfold p_X_Y, p_Y, Rdiv. now rewrite sumf_scal_r. Qed.

Lemma cond_le1 a b : In a X -> In b Y -> 0 < p_Y_given_X Y c a b <= 1.
Proof.
  intros Ha Hb. unfold p_Y_given_X. assert (H := row_pos a Ha). split.
  - apply Rdiv_lt_0_compat; auto.
  - apply Rmult_le_reg_r with (row Y c a); auto. unfold Rdiv.
    rewrite Rmult_assoc, Rinv_l, Rmult_1_r, Rmult_1_l by lra.
    apply (sumf_ge_term (fun b => c a b) Y b); auto. intros; left; auto.
Qed.
Lemma cond'_le1 a b : In a X -> In b Y -> 0 < p_X_given_Y X c a b <= 1.
Proof.
  intros Ha Hb. unfold p_X_given_Y. assert (H := col_pos b Hb). split.
  - apply Rdiv_lt_0_compat; auto.
  - apply Rmult_le_reg_r with (col X c b); auto. unfold Rdiv.
    rewrite Rmult_assoc, Rinv_l, Rmult_1_r, Rmult_1_l by lra.
    apply (sumf_ge_term (fun a => c a b) X a); auto. intros; left; auto.
Qed.

Lemma log2_le0 x : 0 < x <= 1 -> log2 x <= 0.
Proof.
  intros [H1 H2]. unfold log2, Rdiv.
  assert (ln x <= 0) by (rewrite <- ln_1; now apply ln_mono).
  assert (0 < / ln 2) by (apply Rinv_0_lt_compat, ln2_pos).
  rewrite <- (Rmult_0_l (/ ln 2)). apply Rmult_le_compat_r; lra.
Qed.

Definition mi : R := mutual (p_X_Y X Y c) X Y.

(** mutual information through the conditional entropies *)
Lemma mi_cond_Y :
  mi = sumf (fun a => sumf (fun b => p_X_Y X Y c a b * log2 (p_Y_given_X Y c a b)) Y) X
       + entropy (p_Y X Y c) Y.
Proof.
  unfold mi, mutual, entropy.
  assert (E : sumf (fun b => p_Y X Y c b * (ln (p_Y X Y c b) / ln 2)) Y =
    sumf (fun a => sumf (fun b => p_X_Y X Y c a b * (ln (p_Y X Y c b) / ln 2)) Y) X).
  { rewrite sumf_swap. apply sumf_ext. intros b Hb. rewrite <- marg_Y, sumf_scal_r. reflexivity. }
  rewrite E, <- sumf_opp, <- sumf_plus. apply sumf_ext. intros a Ha.
  rewrite <- sumf_opp, <- sumf_plus. apply sumf_ext. intros b Hb.
  rewrite marg_X, marg_Y. unfold log2.
  assert (H1 := row_pos a Ha). assert (H2 := tot_pos). assert (H3 := pY_pos b Hb).
  assert (H4 := cond_le1 a b Ha Hb).
  replace (p_X_Y X Y c a b / (p_X X Y c a * p_Y X Y c b)) with
    (p_Y_given_X Y c a b / p_Y X Y c b).
  - rewrite ln_div by tauto. field. assert (H := ln2_pos). lra.
  - unfold p_X_Y, p_X, p_Y_given_X. field. repeat split; lra.
Qed.

Lemma mi_cond_X :
  mi = sumf (fun a => sumf (fun b => p_X_Y X Y c a b * log2 (p_X_given_Y X c a b)) Y) X
       + entropy (p_X X Y c) X.
Proof.
  unfold mi, mutual, entropy.
  assert (E : sumf (fun a => p_X X Y c a * (ln (p_X X Y c a) / ln 2)) X =
    sumf (fun a => sumf (fun b => p_X_Y X Y c a b * (ln (p_X X Y c a) / ln 2)) Y) X).
  { apply sumf_ext. intros b Hb. rewrite <- marg_X, sumf_scal_r. reflexivity. }
  rewrite E, <- sumf_opp, <- sumf_plus. apply sumf_ext. intros a Ha.
  rewrite <- sumf_opp, <- sumf_plus. apply sumf_ext. intros b Hb.
  rewrite marg_X, marg_Y. unfold log2.
  assert (H1 := col_pos b Hb). assert (H2 := tot_pos). assert (H3 := pX_pos a Ha).
  assert (H4 := cond'_le1 a b Ha Hb).
  replace (p_X_Y X Y c a b / (p_X X Y c a * p_Y X Y c b)) with
    (p_X_given_Y X c a b / p_X X Y c a).
  - rewrite ln_div by tauto. field. assert (H := ln2_pos). lra.
  - unfold p_X_Y, p_Y, p_X_given_Y. field. repeat split; lra.
Qed.

Lemma mi_nonneg : 0 <= mi.
Proof.
  assert (G : sumf (fun a => sumf (fun b => p_X_Y X Y c a b *
     (ln (p_X X Y c a * p_Y X Y c b) - ln (p_X_Y X Y c a b))) Y) X <= 0).
  { apply Rle_trans with
      (sumf (fun a => sumf (fun b => p_X X Y c a * p_Y X Y c b - p_X_Y X Y c a b) Y) X).
    - apply sumf_le. intros a Ha. apply sumf_le. intros b Hb. apply gibbs_term.
      + left; now apply pXY_pos.
      + apply Rmult_lt_0_compat; [now apply pX_pos|now apply pY_pos].
    - right. rewrite (sumf_ext _ (fun a => p_X X Y c a - p_X X Y c a)).
      + rewrite sumf_minus. lra.
      + intros a Ha. rewrite sumf_minus, sumf_scal_l, sum_pY, marg_X. lra. }
  assert (E : mi = / ln 2 * - sumf (fun a => sumf (fun b => p_X_Y X Y c a b *
     (ln (p_X X Y c a * p_Y X Y c b) - ln (p_X_Y X Y c a b))) Y) X).
  { unfold mi, mutual. rewrite <- sumf_opp, <- sumf_scal_l. apply sumf_ext. intros a Ha.
    rewrite <- sumf_opp, <- sumf_scal_l. apply sumf_ext. intros b Hb.
    rewrite marg_X, marg_Y, ln_div.
    - field. assert (H := ln2_pos). lra.
    - now apply pXY_pos.
    - apply Rmult_lt_0_compat; [now apply pX_pos|now apply pY_pos]. }
  rewrite E. apply Rmult_le_pos; [left; apply Rinv_0_lt_compat, ln2_pos|lra].
Qed.

Lemma cond_entropy_nonneg : 0 <= H_Y_given_X X Y c.
Proof.
  unfold H_Y_given_X. rewrite <- sumf_opp. apply sumf_nonneg. intros a Ha.
  rewrite <- sumf_opp. apply sumf_nonneg. intros b Hb.
  assert (H := log2_le0 _ (cond_le1 a b Ha Hb)). assert (H' := pXY_pos a b Ha Hb). nra.
Qed.
Lemma cond'_entropy_nonneg : 0 <= H_X_given_Y X Y c.
Proof.
  unfold H_X_given_Y. rewrite <- sumf_opp. apply sumf_nonneg. intros a Ha.
  rewrite <- sumf_opp. apply sumf_nonneg. intros b Hb.
  assert (H := log2_le0 _ (cond'_le1 a b Ha Hb)). assert (H' := pXY_pos a b Ha Hb). nra.
Qed.

(** smoothed entropies *)
Lemma smooth_bound {A} (p : A -> R) l : (forall x, In x l -> 0 < p x) ->
  entropy p l - INR (length l) * (eps / ln 2) <=
  - sumf (fun x => p x * log2 (p x + eps)) l <= entropy p l.
Proof.
  intros Hp. unfold entropy. assert (Hl := ln2_pos).
  rewrite <- !sumf_opp. split.
  - rewrite <- sumf_const, <- sumf_minus. apply sumf_le. intros x Hx.
    assert (G := gibbs_term (p x) (p x + eps) ltac:(left; auto) ltac:(specialize (Hp x Hx); lra)).
    unfold log2, Rdiv.
    assert (0 < / ln 2) by (now apply Rinv_0_lt_compat).
    apply Rmult_le_compat_r with (r := / ln 2) in G; [|lra]. lra.
  - apply sumf_le. intros x Hx. specialize (Hp x Hx). unfold log2, Rdiv.
    assert (0 < / ln 2) by (now apply Rinv_0_lt_compat).
    assert (G : ln (p x) <= ln (p x + eps)) by (apply ln_mono; lra).
    apply Ropp_le_contravar. apply Rmult_le_compat_l; [lra|].
    apply Rmult_le_compat_r; lra.
Qed.

Lemma HY_bound :
  entropy (p_Y X Y c) Y - INR (length Y) * (eps / ln 2) <= H_Y eps X Y c <= entropy (p_Y X Y c) Y.
Proof. apply smooth_bound. apply pY_pos. Qed.
Lemma HX_bound :
  entropy (p_X X Y c) X - INR (length X) * (eps / ln 2) <= H_X eps X Y c <= entropy (p_X X Y c) X.
Proof. apply smooth_bound. apply pX_pos. Qed.

Lemma code_mi :
  mi - INR (length Y) * (eps / ln 2) <= H_Y eps X Y c - H_Y_given_X X Y c <= mi.
Proof. rewrite mi_cond_Y. assert (H := HY_bound). unfold H_Y_given_X. lra. Qed.

Lemma mi_le_Y : mi <= entropy (p_Y X Y c) Y.
Proof. rewrite mi_cond_Y. assert (H := cond_entropy_nonneg). unfold H_Y_given_X in H. lra. Qed.
Lemma mi_le_X : mi <= entropy (p_X X Y c) X.
Proof. rewrite mi_cond_X. assert (H := cond'_entropy_nonneg). unfold H_X_given_Y in H. lra. Qed.

End NMI.

(** the table of counts plus eps *)
Lemma nmi_counts_spec eps table a b :
  nmi_counts eps table a b =
  eps + sumf (fun e : nat * list (nat * nat) =>
          if Nat.eq_dec a (fst e) then
            sumf (fun pc => if Nat.eq_dec b (fst pc) then INR (snd pc) else 0) (snd e)
          else 0) table.
Proof.
  unfold nmi_counts. revert eps. induction table as [|[u d] t IH]; intros eps.
  - simpl. rewrite sumf_nil. lra.
  - cbn [fold_left fst snd]. rewrite IH, sumf_cons. cbn [fst snd]. rewrite <- Rplus_assoc. f_equal.
    clear. destruct (Nat.eq_dec a u).
    + revert eps. induction d as [|[k v] d IH]; intros eps; cbn [fold_left fst snd].
      * rewrite sumf_nil. lra.
      * rewrite IH, sumf_cons. cbn [fst snd]. destruct (Nat.eq_dec b k); lra.
    + revert eps. induction d as [|[k v] d IH]; intros eps; cbn [fold_left]; [lra|]. apply IH.
Qed.

Lemma nmi_counts_pos eps table a b : 0 < eps -> 0 < nmi_counts eps table a b.
Proof.
  intros H. rewrite nmi_counts_spec.
  assert (0 <= sumf (fun e : nat * list (nat * nat) =>
          if Nat.eq_dec a (fst e) then
            sumf (fun pc => if Nat.eq_dec b (fst pc) then INR (snd pc) else 0) (snd e)
          else 0) table).
  { apply sumf_nonneg. intros e _. destruct (Nat.eq_dec a (fst e)); [|lra].
    apply sumf_nonneg. intros pc _. destruct (Nat.eq_dec b (fst pc)); [apply pos_INR|lra]. }
  lra.
Qed.

(** ** entropy rate *)
Lemma entropy_bounds {A} (p : A -> R) l :
  l <> [] -> (forall x, In x l -> 0 < p x) -> sumf p l = 1 ->
  0 <= entropy p l <= ln (INR (length l)) / ln 2.
Proof.
  intros Hl Hp Hs. assert (H2 := ln2_pos). assert (H3 := Rinv_0_lt_compat _ H2).
  assert (Hn : 0 < INR (length l)) by (apply lt_0_INR; destruct l; [congruence|simpl; lia]).
  unfold entropy. split.
  - rewrite <- sumf_opp. apply sumf_nonneg. intros x Hx.
    assert (p x <= 1).
    { rewrite <- Hs. apply sumf_ge_term; auto. intros; left; auto. }
    assert (ln (p x) <= 0) by (rewrite <- ln_1; apply ln_mono; auto).
    unfold Rdiv. specialize (Hp x Hx).
    assert (0 <= (p x * / ln 2) * - ln (p x)) by (apply Rmult_le_pos; [apply Rmult_le_pos|]; lra).
    lra.
  - assert (G := gibbs p (fun _ => / INR (length l)) l).
    rewrite sumf_const, Rinv_r in G by lra. rewrite Hs in G.
    rewrite (sumf_ext _ (fun x => - ln (INR (length l)) * p x + - (p x * ln (p x)))) in G.
    + rewrite sumf_plus, sumf_scal_l, Hs, sumf_opp in G.
      assert (E : sumf (fun x => p x * (ln (p x) / ln 2)) l = sumf (fun x => p x * ln (p x)) l * / ln 2).
      { rewrite <- sumf_scal_r. apply sumf_ext. intros. unfold Rdiv. ring. }
      rewrite E. unfold Rdiv.
      assert (0 <= (ln (INR (length l)) + sumf (fun x => p x * ln (p x)) l) * / ln 2).
      { apply Rmult_le_pos; [|lra].
        specialize (G ltac:(intros; left; auto) ltac:(intros; now apply Rinv_0_lt_compat)). lra. }
      lra.
    + intros x Hx. rewrite ln_Rinv by auto. ring.
Qed.

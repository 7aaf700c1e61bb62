(** C130: the mutual information of mutual-information.py. *)
From Coq Require Import List Arith Bool Lia Reals Lra Permutation.
From Verif Require Import Prelude Gibbs Edit_Model Edit_Proofs Dec_Model Dec_Proofs Map_Model Map_Spec
  Map_Proofs Info_Proofs Al_Model Al_Spec Al_Props.
Import ListNotations.
Local Open Scope R_scope.

(** ** mutual information of a joint distribution that may have zeros *)
Section MI.
Variables (X Y : list nat) (p : nat -> nat -> R).
Hypothesis p_nonneg : forall x y, 0 <= p x y.
Let px x := sumf (fun y' => p x y') Y.
Let py y := sumf (fun x => p x y) X.
Hypothesis px_pos : forall x, In x X -> 0 < px x.
Hypothesis py_pos : forall y, In y Y -> 0 < py y.
Hypothesis total1 : sumf px X = 1.

Lemma total1' : sumf py Y = 1.
Proof. unfold py. rewrite sumf_swap. exact total1. Qed.

Lemma mutual_terms : mutual p X Y =
  sumf (fun x => sumf (fun y => p x y * (ln (p x y) - ln (px x) - ln (py y))) Y) X / ln 2.
Proof.
  unfold mutual, Rdiv. rewrite <- sumf_scal_r. apply sumf_ext. intros x Hx.
  rewrite <- sumf_scal_r. apply sumf_ext. intros y Hy.
  destruct (p_nonneg x y) as [Hp|<-]; [|ring].
  assert (Hx' := px_pos x Hx). assert (Hy' := py_pos y Hy).
  assert (E : ln (p x y / (px x * py y)) = ln (p x y) - ln (px x) - ln (py y))
    by (rewrite ln_div, ln_mult by (auto; now apply Rmult_lt_0_compat); ring).
  unfold Rdiv, px, py in *. rewrite E. ring.
Qed.

Lemma mutual_nonneg : 0 <= mutual p X Y.
Proof.
  rewrite mutual_terms. apply Rmult_le_pos; [|left; apply Rinv_0_lt_compat, ln2_pos].
  assert (B : sumf (fun x => sumf (fun y => p x y - px x * py y) Y) X <=
    sumf (fun x => sumf (fun y => p x y * (ln (p x y) - ln (px x) - ln (py y))) Y) X).
  { apply sumf_le. intros x Hx. apply sumf_le. intros y Hy.
    assert (Hx' := px_pos x Hx). assert (Hy' := py_pos y Hy).
    assert (G := gibbs_term (p x y) (px x * py y) (p_nonneg x y) ltac:(now apply Rmult_lt_0_compat)).
    rewrite ln_mult in G by auto. lra. }
  rewrite (sumf_ext _ (fun x => px x - px x * 1) X) in B.
  2:{ intros x _. rewrite sumf_minus, sumf_scal_l, total1'. reflexivity. }
  rewrite (sumf_zero (fun x => px x - px x * 1)) in B; [exact B|]. intros; lra.
Qed.

Lemma p_le_px x y : In y Y -> p x y <= px x.
Proof. intros Hy. unfold px. apply (sumf_ge_term (p x)); auto. Qed.
Lemma p_le_py x y : In x X -> p x y <= py y.
Proof. intros Hx. unfold py. apply (sumf_ge_term (fun x => p x y)); auto. Qed.

Lemma mutual_le_X : mutual p X Y <= entropy px X.
Proof.
  rewrite mutual_terms. unfold entropy, Rdiv.
  rewrite (sumf_ext (fun x => px x * (ln (px x) * / ln 2)) (fun x => px x * ln (px x) * / ln 2)) by (intros; ring).
  rewrite sumf_scal_r, <- Ropp_mult_distr_l_reverse.
  apply Rmult_le_compat_r; [left; apply Rinv_0_lt_compat, ln2_pos|].
  rewrite <- sumf_opp. apply sumf_le. intros x Hx.
  replace (- (px x * ln (px x))) with (sumf (fun y => p x y * (- ln (px x))) Y)
    by (rewrite (sumf_scal_r (- ln (px x)) (fun y => p x y) Y); change (sumf (fun y => p x y) Y) with (px x); ring).
  apply sumf_le. intros y Hy. destruct (p_nonneg x y) as [Hp|<-]; [|lra].
  assert (L := ln_mono _ _ Hp (p_le_py x y Hx)).
  apply Rmult_le_compat_l; lra.
Qed.

Lemma mutual_le_Y : mutual p X Y <= entropy py Y.
Proof.
  rewrite mutual_terms. unfold entropy, Rdiv.
  rewrite (sumf_ext (fun x => py x * (ln (py x) * / ln 2)) (fun x => py x * ln (py x) * / ln 2)) by (intros; ring).
  rewrite sumf_scal_r, <- Ropp_mult_distr_l_reverse.
  apply Rmult_le_compat_r; [left; apply Rinv_0_lt_compat, ln2_pos|].
  rewrite sumf_swap, <- sumf_opp. apply sumf_le. intros y Hy.
  replace (- (py y * ln (py y))) with (sumf (fun x => p x y * (- ln (py y))) X)
    by (rewrite (sumf_scal_r (- ln (py y)) (fun x => p x y) X); change (sumf (fun x => p x y) X) with (py y); ring).
  apply sumf_le. intros x Hx. destruct (p_nonneg x y) as [Hp|<-]; [|lra].
  assert (L := ln_mono _ _ Hp (p_le_px x y Hy)).
  apply Rmult_le_compat_l; lra.
Qed.

(** H(Y) - H(Y|X) *)
Lemma mutual_cond : mutual p X Y =
  entropy py Y - sumf (fun x => px x * sumf (fun y => - (p x y / px x) * ln (p x y / px x)) Y) X / ln 2.
Proof.
  rewrite mutual_terms. unfold entropy, Rdiv.
  rewrite (sumf_ext (fun x => py x * (ln (py x) * / ln 2)) (fun x => py x * ln (py x) * / ln 2)) by (intros; ring).
  rewrite (sumf_scal_r (/ ln 2) (fun x => py x * ln (py x)) Y).
  rewrite <- Ropp_mult_distr_l_reverse.
  rewrite <- Rmult_minus_distr_r. f_equal.
  rewrite <- sumf_opp.
  rewrite (sumf_ext (fun y => - (py y * ln (py y))) (fun y => sumf (fun x => - (p x y * ln (py y))) X)).
  2:{ intros y _. rewrite sumf_opp, (sumf_scal_r (ln (py y)) (fun x => p x y) X).
      change (sumf (fun x => p x y) X) with (py y). ring. }
  rewrite (sumf_swap (fun y x => - (p x y * ln (py y)))), <- sumf_minus. apply sumf_ext. intros x Hx.
  rewrite <- sumf_scal_l, <- sumf_minus. apply sumf_ext. intros y Hy.
  assert (Hx' := px_pos x Hx).
  destruct (p_nonneg x y) as [Hp|<-]; [|field; lra].
  assert (E : ln (p x y * / px x) = ln (p x y) - ln (px x)) by (now apply ln_div).
  rewrite E. field. lra.
Qed.
End MI.

(** ** the tables without smoothing *)
Lemma against_nth fr r h : count_occ Nat.eq_dec (against fr r) h = pairs_at fr r h.
Proof.
  unfold against, pairs_at. induction fr as [|[x y] fr IH]; [reflexivity|]. cbn [filter map fst snd].
  destruct (Nat.eqb_spec x r); cbn [andb map snd count_occ]; [|exact IH].
  destruct (Nat.eq_dec y h), (Nat.eqb_spec y h); cbn [length]; congruence.
Qed.

Lemma in_against fr r h : In h (against fr r) <-> In (r, h) fr.
Proof.
  unfold against. rewrite in_map_iff. split.
  - intros ([x y] & <- & Hi). apply filter_In in Hi as [Hi E]. cbn in *. apply Nat.eqb_eq in E. now subst.
  - intros Hi. exists (r, h). split; [reflexivity|]. apply filter_In. split; [exact Hi|]. apply Nat.eqb_refl.
Qed.

Lemma pairs_row fr r Y : NoDup Y -> incl (map snd fr) Y ->
  sumf (fun h => INR (pairs_at fr r h)) Y = INR (count_occ Nat.eq_dec (map fst fr) r).
Proof.
  intros Hn Hi. rewrite <- against_length, <- (sumf_count_occ (against fr r) Y Hn).
  - apply sumf_ext. intros h _. now rewrite against_nth.
  - intros h Hh. apply Hi. apply in_against in Hh. apply in_map_iff. now exists (r, h).
Qed.

Definition swap (f : nat * nat) : nat * nat := (snd f, fst f).
Lemma pairs_at_swap fr r h : pairs_at (map swap fr) h r = pairs_at fr r h.
Proof.
  unfold pairs_at. induction fr as [|[x y] fr IH]; [reflexivity|]. cbn [map swap fst snd filter].
  rewrite (andb_comm (y =? h)). destruct ((x =? r) && (y =? h))%nat%bool; cbn [length]; congruence.
Qed.

Lemma pairs_col fr h X : NoDup X -> incl (map fst fr) X ->
  sumf (fun r => INR (pairs_at fr r h)) X = INR (count_occ Nat.eq_dec (map snd fr) h).
Proof.
  intros Hn Hi. assert (E := pairs_row (map swap fr) h X Hn). rewrite !map_map in E.
  transitivity (sumf (fun r => INR (pairs_at (map swap fr) h r)) X); [|exact (E Hi)].
  apply sumf_ext. intros r _. now rewrite pairs_at_swap.
Qed.

Lemma count_pos (ks : list nat) k : In k ks -> 0 < INR (count_occ Nat.eq_dec ks k).
Proof. intros H. apply lt_0_INR. apply (count_occ_In Nat.eq_dec) in H. lia. Qed.

Section Code.
Variables (fr : list (nat * nat)) (j : joint) (rc hc : table).
Hypothesis cnt : counted 0 (j, rc, hc) fr.
Hypothesis nonempty : fr <> [].
Let X := nodup Nat.eq_dec (map fst fr).
Let Y := nodup Nat.eq_dec (map snd fr).
Let N := INR (length fr).

Lemma N_pos : 0 < N.
Proof. clear cnt. unfold N. apply lt_0_INR. destruct fr; [congruence|cbn; lia]. Qed.

Lemma emp_row r : sumf (fun h => empirical fr r h) Y = INR (count_occ Nat.eq_dec (map fst fr) r) / N.
Proof.
  unfold empirical, Rdiv. rewrite sumf_scal_r. f_equal. apply pairs_row; [apply NoDup_nodup|].
  intros h Hh. now apply nodup_In.
Qed.

Lemma emp_col h : sumf (fun r => empirical fr r h) X = INR (count_occ Nat.eq_dec (map snd fr) h) / N.
Proof.
  unfold empirical, Rdiv. rewrite (sumf_scal_r (/ INR (length fr)) (fun r => INR (pairs_at fr r h)) X).
  f_equal. apply pairs_col; [apply NoDup_nodup|]. intros r Hr. now apply nodup_In.
Qed.

Lemma tal_ent d ks (L : list nat) : tal 0 d ks -> NoDup L -> (forall k, In k L <-> In k ks) ->
  ent (normalize d) = entropy (fun k => INR (count_occ Nat.eq_dec ks k) / INR (length ks)) L.
Proof.
  intros T Hn HL. unfold ent, normalize, entropy. rewrite sumf_map. cbn [snd].
  rewrite (tal_total _ _ _ T), Rmult_0_r, Rplus_0_r.
  set (g := fun v => - (v / INR (length ks)) * ln (v / INR (length ks))).
  assert (E := tal_sum 0 d ks g T). unfold g in E.
  unfold Rdiv in *. rewrite E. clear E.
  rewrite (sumf_perm _ (map fst d) L).
  - rewrite <- sumf_scal_r, <- sumf_opp. apply sumf_ext. intros k _. rewrite Rplus_0_l. ring.
  - apply NoDup_Permutation; [apply T|exact Hn|]. intros k. rewrite HL. apply (tal_keys _ _ _ T).
Qed.

Lemma code_h_x : h_x (j, rc, hc) = entropy (fun h => sumf (fun r => empirical fr r h) X) Y.
Proof.
  destruct cnt as (_ & T & _). unfold h_x. rewrite (tal_ent hc _ Y T).
  - unfold entropy. f_equal. apply sumf_ext. intros h _. now rewrite emp_col, map_length.
  - apply NoDup_nodup.
  - intros k. apply nodup_In.
Qed.

Lemma code_h_y : h_y (j, rc, hc) = entropy (fun r => sumf (fun h => empirical fr r h) Y) X.
Proof.
  destruct cnt as (T & _). unfold h_y. rewrite (tal_ent rc _ X T).
  - unfold entropy. f_equal. apply sumf_ext. intros h _. now rewrite emp_row, map_length.
  - apply NoDup_nodup.
  - intros k. apply nodup_In.
Qed.

Lemma code_cond : cond_ent j (normalize rc) =
  sumf (fun r => sumf (fun h => empirical fr r h) Y *
    sumf (fun h => - (empirical fr r h / sumf (fun h => empirical fr r h) Y) *
                    ln (empirical fr r h / sumf (fun h => empirical fr r h) Y)) Y) X / ln 2.
Proof.
  destruct cnt as (T & _ & _ & _ & TJ). unfold cond_ent. f_equal. unfold normalize at 2. rewrite sumf_map. cbn [fst snd].
  rewrite (tal_total _ _ _ T), Rmult_0_r, Rplus_0_r, map_length.
  rewrite (sumf_ext _ (fun kv : nat * R => (fun k => INR (count_occ Nat.eq_dec (map fst fr) k) / N *
     sumf (fun kv => - snd kv * ln (snd kv)) (normalize (dget0 [] j k))) (fst kv)) rc).
  2:{ intros [k v] Hi. cbn [fst snd]. apply tal_tallies in T. destruct T as [_ T]. apply T in Hi as [_ ->].
      unfold N. now rewrite Rplus_0_l. }
  rewrite <- (sumf_map fst (fun k => INR (count_occ Nat.eq_dec (map fst fr) k) / N *
     sumf (fun kv => - snd kv * ln (snd kv)) (normalize (dget0 [] j k))) rc).
  rewrite (sumf_perm _ (map fst rc) X).
  2:{ apply NoDup_Permutation; [apply T|apply NoDup_nodup|]. intros k. unfold X. rewrite nodup_In.
      apply (tal_keys _ _ _ T). }
  apply sumf_ext. intros r Hr. rewrite emp_row. f_equal.
  assert (Tr := TJ r). assert (HN := N_pos).
  assert (Hc : 0 < INR (count_occ Nat.eq_dec (map fst fr) r)) by (apply count_pos; unfold X in Hr; now apply nodup_In in Hr).
  unfold normalize. rewrite sumf_map. cbn [snd].
  rewrite (tal_total _ _ _ Tr), Rmult_0_r, Rplus_0_r, against_length.
  set (n := INR (count_occ Nat.eq_dec (map fst fr) r)) in *.
  assert (E := tal_sum 0 _ _ (fun v => - (v / n) * ln (v / n)) Tr). cbn beta in E. unfold table in *. rewrite E. clear E.
  transitivity (sumf (fun h => - (empirical fr r h / (n / N)) * ln (empirical fr r h / (n / N)))
    (map fst (dget0 ([] : table) j r))).
  - apply sumf_ext. intros h _. rewrite Rplus_0_l, against_nth. unfold empirical. fold N.
    replace (INR (pairs_at fr r h) / N / (n / N)) with (INR (pairs_at fr r h) / n) by (field; lra). reflexivity.
  - apply (sumf_incl (fun h => - (empirical fr r h / (n / N)) * ln (empirical fr r h / (n / N)))).
    + apply Tr.
    + apply NoDup_nodup.
    + intros h Hh. apply (tal_keys _ _ _ Tr) in Hh. apply in_against in Hh. apply nodup_In.
      apply in_map_iff. now exists (r, h).
    + intros h _ Hh. assert (Z : pairs_at fr r h = 0%nat).
      { rewrite <- against_nth. apply count_occ_not_In. intros Hi. apply Hh. now apply (tal_keys _ _ _ Tr). }
      unfold empirical. rewrite Z. cbn [INR]. unfold Rdiv. ring.
Qed.

Lemma emp_nonneg r h : 0 <= empirical fr r h.
Proof.
  unfold empirical. apply Rmult_le_pos; [apply pos_INR|]. left. apply Rinv_0_lt_compat, N_pos.
Qed.
Lemma emp_row_pos r : In r X -> 0 < sumf (fun h => empirical fr r h) Y.
Proof.
  intros H. rewrite emp_row. apply Rdiv_lt_0_compat; [|apply N_pos]. apply count_pos. now apply nodup_In in H.
Qed.
Lemma emp_col_pos h : In h Y -> 0 < sumf (fun r => empirical fr r h) X.
Proof.
  intros H. rewrite emp_col. apply Rdiv_lt_0_compat; [|apply N_pos]. apply count_pos. now apply nodup_In in H.
Qed.
Lemma emp_total : sumf (fun r => sumf (fun h => empirical fr r h) Y) X = 1.
Proof.
  rewrite (sumf_ext _ (fun r => INR (count_occ Nat.eq_dec (map fst fr) r) * / N)) by (intros; apply emp_row).
  rewrite sumf_scal_r, sumf_count_occ; [|apply NoDup_nodup|intros r Hr; now apply nodup_In].
  rewrite map_length. apply Rinv_r. assert (H := N_pos). unfold N in *. lra.
Qed.

Lemma code_mutual : mi_bits (j, rc, hc) = mutual (empirical fr) X Y.
Proof.
  rewrite (mutual_cond X Y (empirical fr) emp_nonneg emp_row_pos emp_col_pos).
  unfold mi_bits. change (ent (normalize hc)) with (h_x (j, rc, hc)). rewrite code_h_x, code_cond. reflexivity.
Qed.
End Code.

(** without smoothing the printed value is the mutual information of the
    empirical distribution of the frames, and both printed values are in range *)
Theorem C130_no_smoothing_partial rm hm rs hs hyp ref_alis hyp_alis :
  (forall f a, In (f, a) ref_alis -> dget Nat.eq_dec hyp_alis f = Some (hyp f) /\
     (forall s, In s a -> dget Nat.eq_dec rm s = Some (rs s)) /\
     (forall s, In s (hyp f) -> dget Nat.eq_dec hm s = Some (hs s))) ->
  let fr := flat_map (fun fa => paired rs hs (snd fa) (hyp (fst fa))) ref_alis in
  fr <> [] ->
  let X := nodup Nat.eq_dec (map fst fr) in
  let Y := nodup Nat.eq_dec (map snd fr) in
  exists c, count_alis 0 rm hm ref_alis hyp_alis = Ok c /\
    mi_bits c = mutual (empirical fr) X Y /\
    h_x c = entropy (fun h => sumf (fun r => empirical fr r h) X) Y /\
    h_y c = entropy (fun r => sumf (fun h => empirical fr r h) Y) X /\
    0 <= mi_bits c <= h_x c /\ mi_bits c <= h_y c /\
    (norm_mi c = None <-> h_y c = 0) /\
    forall v, norm_mi c = Some v -> 0 <= v <= 100.
Proof.
  intros H fr Hne X Y.
  destruct (count_files_ok 0 rm hm rs hs hyp hyp_alis ref_alis None no_counts []) as (o & c & E & Hc); auto.
  { repeat split; try constructor; intros; cbn in *; try tauto; try reflexivity. }
  cbn [app] in Hc. change (all_frames rs hs hyp ref_alis) with fr in Hc.
  destruct c as [[j rc] hc]. exists (j, rc, hc). unfold count_alis. rewrite E. cbn [bindr snd].
  assert (E1 := code_mutual fr j rc hc Hc Hne). assert (E2 := code_h_x fr j rc hc Hc).
  assert (E3 := code_h_y fr j rc hc Hc).
  assert (B1 := mutual_nonneg X Y (empirical fr) (emp_nonneg fr Hne) (emp_row_pos fr Hne) (emp_col_pos fr Hne) (emp_total fr Hne)).
  assert (B2 := mutual_le_X X Y (empirical fr) (emp_nonneg fr Hne) (emp_row_pos fr Hne) (emp_col_pos fr Hne)).
  assert (B3 := mutual_le_Y X Y (empirical fr) (emp_nonneg fr Hne) (emp_row_pos fr Hne) (emp_col_pos fr Hne)).
  fold X Y in E1, E2, E3. rewrite <- E1, <- E3 in B2. rewrite <- E1, <- E2 in B3. rewrite <- E1 in B1.
  split; [reflexivity|]. split; [exact E1|]. split; [exact E2|]. split; [exact E3|].
  split; [auto|]. split; [auto|]. unfold norm_mi. destruct (Req_EM_T (h_y (j, rc, hc)) 0) as [Z|Z].
  - split; [tauto|discriminate].
  - split; [split; [discriminate|tauto]|]. intros v Ev.
    assert (In' : forall a b : R, Some a = Some b -> a = b) by congruence. apply In' in Ev as <-.
    assert (0 < h_y (j, rc, hc)) by lra. unfold Rdiv. split.
    + apply Rmult_le_pos; [lra|]. left. now apply Rinv_0_lt_compat.
    + apply (Rmult_le_reg_r (h_y (j, rc, hc))); auto. rewrite Rmult_assoc, Rinv_l by lra. lra.
Qed.

(** binary entropy is increasing below 1/2 *)
Lemma h2_lt p q : 0 < p -> p < q -> q < 1 / 2 ->
  - p * ln p + - (1 - p) * ln (1 - p) < - q * ln q + - (1 - q) * ln (1 - q).
Proof.
  intros Hp Hpq Hq.
  assert (G1 := gibbs_term p q ltac:(lra) ltac:(lra)).
  assert (G2 := gibbs_term (1 - p) (1 - q) ltac:(lra) ltac:(lra)).
  assert (L : ln q < ln (1 - q)) by (apply ln_increasing; lra).
  assert ((q - p) * (ln q - ln (1 - q)) < 0).
  { assert (0 < (q - p) * (ln (1 - q) - ln q)) by (apply Rmult_lt_0_compat; lra). lra. }
  lra.
Qed.

(** whatever the (positive) epsilon, six frames with independent symbols get a
    negative mutual information *)
Theorem C130_smoothing_refuted eps : 0 < eps ->
  exists rm hm ref_alis hyp_alis c,
    count_alis eps rm hm ref_alis hyp_alis = Ok c /\
    mi_bits c < 0 /\ 0 < h_y c /\ exists v, norm_mi c = Some v /\ v < 0.
Proof.
  intros He. exists [(0, 0); (1, 1)]%nat, [(0, 0); (1, 1)]%nat, [(7, [0; 0; 0; 1; 1; 1])]%nat,
    [(7, [0; 1; 1; 0; 1; 1])]%nat.
  set (a := eps + 1). set (b := eps + 1 + 1). set (n := eps + 1 + 1 + 1). set (d := eps + 1 + 1 + 1 + 1).
  exists ([(0, [(0, a); (1, b)]); (1, [(0, a); (1, b)])], [(0, n); (1, n)], [(0, b); (1, d)])%nat.
  split; [reflexivity|].
  assert (Hd : 0 < d) by (unfold d; lra). assert (Ha : 0 < a) by (unfold a; lra).
  assert (Hb : 0 < b) by (unfold b; lra). assert (Hn : 0 < n) by (unfold n; lra).
  assert (L2 := ln2_pos).
  set (p := b / (b + d)). set (q := a / (a + b)).
  assert (P0 : 0 < p) by (unfold p; apply Rdiv_lt_0_compat; lra).
  assert (PQ : p < q).
  { unfold p, q. apply (Rmult_lt_reg_r ((b + d) * (a + b))); [apply Rmult_lt_0_compat; lra|].
    replace (b / (b + d) * ((b + d) * (a + b))) with (b * (a + b)) by (field; lra).
    replace (a / (a + b) * ((b + d) * (a + b))) with (a * (b + d)) by (field; lra).
    unfold a, b, d. nra. }
  assert (QH : q < 1 / 2).
  { unfold q. apply (Rmult_lt_reg_r (a + b)); [lra|].
    replace (a / (a + b) * (a + b)) with a by (field; lra). unfold a, b. lra. }
  assert (HL := h2_lt p q P0 PQ QH).
  assert (HY : h_y ([(0, [(0, a); (1, b)]); (1, [(0, a); (1, b)])], [(0, n); (1, n)], [(0, b); (1, d)])%nat = 1).
  { unfold h_y, ent, normalize, total, sumf. cbn [map rsum fold_right fst snd].
    replace (n + (n + 0)) with (2 * n) by ring. replace (n / (2 * n)) with (/ 2) by (field; lra).
    rewrite ln_Rinv by lra. field. lra. }
  assert (MI : mi_bits ([(0, [(0, a); (1, b)]); (1, [(0, a); (1, b)])], [(0, n); (1, n)], [(0, b); (1, d)])%nat < 0).
  { unfold mi_bits, cond_ent, ent, normalize, total, sumf. cbn [map rsum fold_right fst snd].
    unfold dget0. cbn [dget Nat.eq_dec nat_rec nat_rect map rsum fold_right fst snd].
    replace (n + (n + 0)) with (2 * n) by ring. replace (n / (2 * n)) with (/ 2) by (field; lra).
    rewrite !Rplus_0_r.
    replace (d / (b + d)) with (1 - p) by (unfold p; field; lra). fold p.
    replace (b / (a + b)) with (1 - q) by (unfold q; field; lra). fold q.
    unfold Rdiv. rewrite <- Rmult_minus_distr_r.
    apply Ropp_lt_cancel. rewrite Ropp_0, <- Ropp_mult_distr_l_reverse.
    apply Rmult_lt_0_compat; [lra|]. now apply Rinv_0_lt_compat. }
  split; [exact MI|]. rewrite HY. split; [lra|]. unfold norm_mi. rewrite HY.
  destruct (Req_EM_T 1 0); [lra|]. eexists. split; [reflexivity|]. lra.
Qed.

(** identical alignments with two equally frequent symbols: one bit, 100 % *)
Example C130_example : exists c,
  count_alis 0 [(0, 0); (1, 1)]%nat [(0, 5); (1, 6)]%nat [(9, [0; 1; 1; 0])]%nat [(9, [0; 1; 1; 0])]%nat = Ok c /\
  mi_bits c = 1 /\ norm_mi c = Some 100.
Proof.
  assert (L2 := ln2_pos).
  exists ([(0, [(5, one2)]); (1, [(6, one2)])], [(0, one2); (1, one2)],
          [(5, one2); (6, one2)])%nat.
  split; [reflexivity|].
  assert (M : mi_bits ([(0, [(5, one2)]); (1, [(6, one2)])], [(0, one2); (1, one2)],
          [(5, one2); (6, one2)])%nat = 1).
  { unfold mi_bits, cond_ent, ent, normalize, total, sumf. cbn [map rsum fold_right fst snd].
    unfold dget0. cbn [dget Nat.eq_dec nat_rec nat_rect map rsum fold_right fst snd].
    unfold one2. replace (0 + 1 + 1 + (0 + 1 + 1 + 0)) with 4 by ring. replace (0 + 1 + 1 + 0) with 2 by ring.
    replace ((0 + 1 + 1) / 4) with (/ 2) by field. replace ((0 + 1 + 1) / 2) with 1 by field.
    rewrite ln_1, ln_Rinv by lra. field. lra. }
  split; [exact M|]. unfold norm_mi.
  assert (HY : h_y ([(0, [(5, one2)]); (1, [(6, one2)])], [(0, one2); (1, one2)],
          [(5, one2); (6, one2)])%nat = 1).
  { unfold h_y, ent, normalize, total, sumf. cbn [map rsum fold_right fst snd].
    unfold one2. replace (0 + 1 + 1 + (0 + 1 + 1 + 0)) with 4 by ring.
    replace ((0 + 1 + 1) / 4) with (/ 2) by field. rewrite ln_Rinv by lra. field. lra. }
  rewrite HY, M. destruct (Req_EM_T 1 0); [lra|]. f_equal. field.
Qed.

Print Assumptions C130_no_smoothing_partial.
Print Assumptions C130_smoothing_refuted.

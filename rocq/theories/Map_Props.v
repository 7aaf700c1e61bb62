(** C58, C59, C73. *)
From Coq Require Import List Arith Bool Lia Reals Lra Permutation.
From Verif Require Import Prelude Gibbs Edit_Model Edit_Spec Edit_Proofs Dec_Model Dec_Proofs
  Map_Model Map_Spec Map_Proofs Info_Proofs.
Import ListNotations.

(** ** C59 *)
(** Reference and hypothesis are dictionaries from utterances to frame labels.
    The mapping is defined exactly on the units that share a frame with the
    reference; each is mapped to a phone with which it overlaps at least as much
    as with any other phone. *)
Theorem C59_argmax :
  forall (ref hyp : list (nat * list nat)) m, NoDup (map fst ref) ->
  overlap_mapping ref hyp = Ok m ->
  let ov := overlap (dget Nat.eq_dec ref) (dget Nat.eq_dec hyp) (map fst ref) in
  (forall u, (exists p, dget Nat.eq_dec m u = Some p) <-> exists p, 0 < ov u p) /\
  (forall u p, dget Nat.eq_dec m u = Some p -> 0 < ov u p /\ forall q, ov u q <= ov u p).
Proof.
  intros ref hyp m Hn H.
  destruct (overlap_mapping_spec _ _ _ H) as [H1 H2].
  assert (E : forall u p, overlap (dget Nat.eq_dec ref) (dget Nat.eq_dec hyp) (map fst ref) u p
                          = cnt (is p u) (pairs_of ref hyp)).
  { intros u p. unfold overlap. apply (zip_spec (is p u) ref hyp Hn). }
  cbv zeta. split.
  - intros u. split.
    + intros [p Hp]. exists p. rewrite E. now apply H2.
    + intros [p Hp]. rewrite E in Hp. apply dget_some_in, H1.
      unfold cnt in Hp.
      destruct (filter (fun xy => is p u (fst xy) (snd xy)) (pairs_of ref hyp)) as [|xy l] eqn:F;
        [simpl in Hp; lia|].
      assert (Hi : In xy (xy :: l)) by now left. rewrite <- F in Hi.
      apply filter_In in Hi as [Hi Hs]. unfold is in Hs.
      apply andb_true_iff in Hs as [_ Hs]. apply Nat.eqb_eq in Hs. subst u.
      now apply in_map.
  - intros u p Hp. rewrite E. destruct (H2 u p Hp) as [A B]. split; auto.
    intros q. rewrite E. apply B.
Qed.

(** the script fails exactly when a reference utterance has no hypothesis *)
Theorem C59_errors :
  forall (ref hyp : list (nat * list nat)),
  (exists m, overlap_mapping ref hyp = Ok m) <->
  (forall k, In k (map fst ref) -> In k (map fst hyp)).
Proof.
  intros ref hyp. split.
  - intros [m Hm] k Hk. destruct (dget Nat.eq_dec hyp k) as [h|] eqn:E.
    + apply dget_some_in. eauto.
    + apply in_map_iff in Hk as ([k' r] & E' & Hi). simpl in E'. subst k'.
      unfold overlap_mapping in Hm.
      rewrite (overlap_counts_missing ref hyp k r Hi E) in Hm. discriminate.
  - intros H. apply overlap_mapping_total. intros k r Hi. apply dget_some_in, H.
    apply in_map_iff. now exists (k, r).
Qed.

(** no other unit-to-phone mapping labels more frames correctly *)
Theorem C59_best_accuracy :
  forall (ref hyp : list (nat * list nat)) m (f g : nat -> nat), NoDup (map fst ref) ->
  overlap_mapping ref hyp = Ok m ->
  (forall u p, dget Nat.eq_dec m u = Some p -> f u = p) ->
  correct (dget Nat.eq_dec ref) (dget Nat.eq_dec hyp) g (map fst ref) <=
  correct (dget Nat.eq_dec ref) (dget Nat.eq_dec hyp) f (map fst ref).
Proof.
  intros ref hyp m f g Hn H Hf.
  destruct (overlap_mapping_spec _ _ _ H) as [H1 H2].
  unfold correct.
  rewrite (zip_spec (fun x y => x =? f y) ref hyp Hn), (zip_spec (fun x y => x =? g y) ref hyp Hn).
  set (U := nodup Nat.eq_dec (map snd (pairs_of ref hyp))).
  assert (HU : NoDup U) by apply NoDup_nodup.
  assert (Hin : forall y, In y (map snd (pairs_of ref hyp)) <-> In y U)
    by (intros; unfold U; now rewrite nodup_In).
  rewrite (cnt_split f U), (cnt_split g U) by (auto; intros; now apply Hin).
  assert (Hle : forall u, In u U -> cnt (is (g u) u) (pairs_of ref hyp) <= cnt (is (f u) u) (pairs_of ref hyp)).
  { intros u Hu. apply Hin, H1, dget_some_in in Hu as [p Hp].
    rewrite (Hf u p Hp). now apply H2. }
  clear - Hle. induction U as [|u U IH]; [simpl; lia|].
  cbn [map list_sum fold_right]. unfold list_sum in IH.
  specialize (IH ltac:(intros; apply Hle; now right)).
  specialize (Hle u (or_introl eq_refl)). lia.
Qed.

(** Mapping the hypothesis itself: never raises when no hypothesis is longer
    than its reference... *)
Theorem C59_map_hypothesis_partial :
  forall (ref hyp : list (nat * list nat)) m unk,
  NoDup (map fst ref) -> NoDup (map fst hyp) -> overlap_mapping ref hyp = Ok m ->
  (forall k h, In (k, h) hyp -> exists r, In (k, r) ref /\ length h <= length r) ->
  exists new, map_trans hyp m unk = Ok new /\
    Forall2 (fun a b => fst a = fst b /\
       Forall2 (fun x y => dget Nat.eq_dec m x = Some y) (snd a) (snd b)) hyp new.
Proof.
  intros ref hyp m unk Hn Hh H Hlen.
  destruct (overlap_mapping_spec _ _ _ H) as [H1 _].
  set (f := fun u => match dget Nat.eq_dec m u with Some p => p | None => 0 end).
  assert (Hall : forall k h u, In (k, h) hyp -> In u h -> dget Nat.eq_dec m u = Some (f u)).
  { intros k h u Hk Hu. destruct (Hlen k h Hk) as (r & Hr & Hle).
    assert (Hi : In u (map fst m)).
    { apply H1. unfold pairs_of. apply in_map_iff.
      apply In_nth_error in Hu as [t Ht].
      assert (t < length h) by (apply nth_error_Some; congruence).
      destruct (nth_error r t) as [x|] eqn:Ex; [|apply nth_error_None in Ex; lia].
      exists (x, u). split; [reflexivity|]. apply in_flat_map.
      exists (k, r). split; auto. cbn [fst snd]. rewrite (nodup_dget hyp k h Hh Hk).
      clear - Ht Ex. revert r h Ht Ex. induction t; intros [|a r] [|b h]; simpl; try discriminate.
      - intros [= ->] [= ->]. now left.
      - intros Ht Ex. right. eauto. }
    apply dget_some_in in Hi as [p Hp]. unfold f. now rewrite Hp. }
  assert (F : Forall2 (fun a b => fst a = fst b /\
       Forall2 (fun x y => dget Nat.eq_dec m x = Some y) (snd a) (snd b)) hyp
       (map (fun kh => (fst kh, map f (snd kh))) hyp)).
  { clear - Hall. induction hyp as [|[k h] hyp IH]; constructor.
    - split; [reflexivity|]. cbn [fst snd].
      assert (Hx : forall u, In u h -> dget Nat.eq_dec m u = Some (f u))
        by (intros; eapply Hall; [now left|auto]).
      clear - Hx. induction h; constructor; [apply Hx; now left|].
      apply IHh. intros; apply Hx; now right.
    - apply IH. intros. eapply Hall; eauto. right; eauto. }
  eexists. split; [|exact F]. apply map_trans_spec.
  clear - F. induction F as [|a b l l' [Ha Hb] F IH]; constructor; auto.
  split; auto. clear - Hb. induction Hb; constructor; auto.
Qed.

(** ...but units of trailing frames without reference are left unmapped and
    maptrans then fails on the very alignment used to build the mapping *)
Theorem C59_unmapped_unit_refuted :
  exists ref hyp m, overlap_mapping ref hyp = Ok m /\ map fst ref = map fst hyp /\
  map_trans hyp m None = Err KeyError.
Proof.
  exists [(0, [1;1;2])], [(0, [7;7;8;9])], [(7, 1); (8, 2)]. repeat split.
Qed.

(** maptrans: every token is replaced by its image, or the unknown symbol *)
Theorem C59_maptrans :
  forall trans mapping unk new,
  map_trans trans mapping unk = Ok new <->
  Forall2 (fun a b => fst a = fst b /\ Forall2 (fun x y =>
     dget Nat.eq_dec mapping x = Some y \/ (dget Nat.eq_dec mapping x = None /\ unk = Some y))
     (snd a) (snd b)) trans new.
Proof. exact map_trans_spec. Qed.

Example C59_example :
  overlap_mapping [(0, [1;1;2;2]); (1, [3;1])] [(0, [7;7;7;8]); (1, [8;8]); (5, [9])]
  = Ok [(7, 1); (8, 2)] /\
  overlap (dget Nat.eq_dec [(0, [1;1;2;2]); (1, [3;1])])
          (dget Nat.eq_dec [(0, [7;7;7;8]); (1, [8;8]); (5, [9])]) [0;1] 7 1 = 2.
Proof. split; reflexivity. Qed.

(** ** C58 *)
Local Open Scope R_scope.
(** For any table of counts and any listing of its units and phones: the
    mutual information of the smoothed table lies between 0 and both entropies;
    the number the script uses is that mutual information up to
    (number of phones) * eps / ln 2, and its entropies are exact up to the same
    kind of error (eps is 1e-37). *)
Theorem C58_mutual_information :
  forall eps table X Y, 0 < eps -> X <> [] -> Y <> [] ->
  let c := nmi_counts eps table in
  let P := p_X_Y X Y c in
  let I := H_Y eps X Y c - H_Y_given_X X Y c in
  (* the table is a probability distribution with these marginals *)
  (sumf (fun a => sumf (P a) Y) X = 1 /\
   (forall a, In a X -> sumf (P a) Y = p_X X Y c a) /\
   (forall b, In b Y -> sumf (fun a => P a b) X = p_Y X Y c b)) /\
  (* information inequalities *)
  0 <= mutual P X Y <= Rmin (entropy (p_X X Y c) X) (entropy (p_Y X Y c) Y) /\
  (* what is computed *)
  mutual P X Y - INR (length Y) * (eps / ln 2) <= I <= mutual P X Y /\
  I <= H_Y eps X Y c /\ I <= H_X eps X Y c + INR (length X) * (eps / ln 2) /\
  entropy (p_Y X Y c) Y - INR (length Y) * (eps / ln 2) <= H_Y eps X Y c <= entropy (p_Y X Y c) Y /\
  entropy (p_X X Y c) X - INR (length X) * (eps / ln 2) <= H_X eps X Y c <= entropy (p_X X Y c) X.
Proof.
  intros eps table X Y He HX HY c P I.
  assert (Hc : forall a b, In a X -> In b Y -> 0 < c a b) by (intros; now apply nmi_counts_pos).
  assert (A1 := mi_nonneg X Y c HX HY Hc). assert (A2 := mi_le_X X Y c HX HY Hc).
  assert (A3 := mi_le_Y X Y c HX HY Hc).
  assert (A4 := code_mi eps X Y c He HX HY Hc). assert (A5 := HY_bound eps X Y c He HX HY Hc).
  assert (A6 := HX_bound eps X Y c He HX HY Hc).
  assert (A7 := cond_entropy_nonneg X Y c HX HY Hc).
  unfold mi in *. fold P in A1, A2, A3, A4. fold I in A4.
  split; [|split; [|split; [exact A4|split; [|split; [|split; [exact A5|exact A6]]]]]].
  - split; [|split].
    + rewrite (sumf_ext _ (p_X X Y c)); [now apply sum_pX|].
      intros a Ha. apply marg_X.
    + intros a Ha. apply marg_X.
    + intros b Hb. apply marg_Y.
  - split; [exact A1|]. now apply Rmin_glb.
  - unfold I. lra.
  - lra.
Qed.

(** the printed percentages *)
Theorem C58_percentage_partial :
  forall eps table X Y, 0 < eps -> X <> [] -> Y <> [] ->
  let c := nmi_counts eps table in
  (0 < H_Y eps X Y c ->
   - (100 * INR (length Y) * eps / (ln 2 * H_Y eps X Y c)) <= nmi eps X Y c true <= 100) /\
  (0 < H_Y eps X Y c + H_X eps X Y c ->
   - (200 * INR (length Y) * eps / (ln 2 * (H_Y eps X Y c + H_X eps X Y c)))
     <= nmi eps X Y c false <=
   100 + 100 * INR (length X) * eps / (ln 2 * (H_Y eps X Y c + H_X eps X Y c))).
Proof.
  intros eps table X Y He HX HY c.
  destruct (C58_mutual_information eps table X Y He HX HY)
    as (_ & [B1 _] & [B2 _] & B3 & B4 & _).
  fold c in B1, B2, B3, B4.
  assert (Hl := ln2_pos).
  set (hy := H_Y eps X Y c) in *. set (hx := H_X eps X Y c) in *.
  set (hc := H_Y_given_X X Y c) in *.
  unfold nmi. fold hy. fold hx. fold hc.
  set (ny := INR (length Y)) in *. set (nx := INR (length X)) in *.
  split; intros Hp.
  - split.
    + replace (- (100 * ny * eps / (ln 2 * hy))) with ((- (100 * (ny * (eps / ln 2)))) * / hy)
        by (field; lra).
      unfold Rdiv at 2. apply Rmult_le_compat_r; [left; now apply Rinv_0_lt_compat|]. lra.
    + replace 100 with (100 * hy * / hy) at 2 by (field; lra).
      unfold Rdiv. apply Rmult_le_compat_r; [left; now apply Rinv_0_lt_compat|]. lra.
  - split.
    + replace (- (200 * ny * eps / (ln 2 * (hy + hx)))) with ((- (200 * (ny * (eps / ln 2)))) * / (hy + hx))
        by (field; lra).
      unfold Rdiv at 2. apply Rmult_le_compat_r; [left; now apply Rinv_0_lt_compat|]. lra.
    + replace (100 + 100 * nx * eps / (ln 2 * (hy + hx))) with
        ((100 * (hy + hx) + 100 * (nx * (eps / ln 2))) * / (hy + hx)) by (field; lra).
      unfold Rdiv at 1. apply Rmult_le_compat_r; [left; now apply Rinv_0_lt_compat|]. lra.
Qed.

(** exact non-negativity is lost to the smoothing: one unit, one phone *)
Theorem C58_negative_refuted :
  forall eps, 0 < eps ->
  let c := nmi_counts eps [(7, [(1, 10)])]%nat in
  H_Y eps [7]%nat [1]%nat c - H_Y_given_X [7]%nat [1]%nat c < 0.
Proof.
  intros eps He c.
  assert (Hc : 0 < c 7%nat 1%nat) by now apply nmi_counts_pos.
  unfold H_Y, H_Y_given_X, p_X_Y, p_Y, p_Y_given_X, tot, col, row, sumf. cbn [map rsum].
  replace ((c 7%nat 1%nat + 0) / (c 7%nat 1%nat + 0 + 0)) with 1 by (field; lra).
  replace (c 7%nat 1%nat / (c 7%nat 1%nat + 0)) with 1 by (field; lra).
  replace (c 7%nat 1%nat / (c 7%nat 1%nat + 0 + 0)) with 1 by (field; lra).
  unfold log2. rewrite ln_1.
  assert (0 < ln (1 + eps)) by (rewrite <- ln_1; apply ln_increasing; lra).
  assert (0 < ln (1 + eps) / ln 2) by (apply Rdiv_lt_0_compat; [auto|apply ln2_pos]).
  lra.
Qed.

(** the result does not depend on the iteration order of the two sets *)
Theorem C58_set_order :
  forall eps X Y X' Y' c old, Permutation X X' -> Permutation Y Y' ->
  nmi eps X Y c old = nmi eps X' Y' c old.
Proof.
  intros eps X Y X' Y' c old HX HY.
  assert (Er : forall a, row Y c a = row Y' c a) by (intros; unfold row; now apply sumf_perm).
  assert (Ec : forall b, col X c b = col X' c b) by (intros; unfold col; now apply sumf_perm).
  assert (Et : tot X Y c = tot X' Y' c).
  { unfold tot. rewrite (sumf_perm _ X X' HX). apply sumf_ext. intros; apply Er. }
  assert (E1 : H_Y eps X Y c = H_Y eps X' Y' c).
  { unfold H_Y. f_equal. rewrite (sumf_perm _ Y Y' HY). apply sumf_ext. intros b _.
    unfold p_Y. now rewrite Ec, Et. }
  assert (E2 : H_X eps X Y c = H_X eps X' Y' c).
  { unfold H_X. f_equal. rewrite (sumf_perm _ X X' HX). apply sumf_ext. intros b _.
    unfold p_X. now rewrite Er, Et. }
  assert (E3 : H_Y_given_X X Y c = H_Y_given_X X' Y' c).
  { unfold H_Y_given_X. f_equal. rewrite (sumf_perm _ X X' HX). apply sumf_ext. intros a _.
    rewrite (sumf_perm _ Y Y' HY). apply sumf_ext. intros b _.
    unfold p_X_Y, p_Y_given_X. now rewrite Er, Et. }
  unfold nmi. now rewrite E1, E2, E3.
Qed.

(** two units, two phones, perfectly informative counts *)
Example C58_example :
  let c := nmi_counts (1/10) [(7, [(1, 10)]); (8, [(2, 10)])]%nat in
  c 7%nat 1%nat = 10 + 1/10 /\ c 7%nat 2%nat = 1/10.
Proof. cbn. split; lra. Qed.

(** ** C73: entropy rate *)
Lemma tok_fold l : forall d, NoDup (map fst d) -> (forall k n, In (k, n) d -> 0 < n)%nat ->
  let d' := fold_left (fun d tok => dset d tok (dget0 0%nat d tok + 1)%nat) l d in
  NoDup (map fst d') /\ (forall k n, In (k, n) d' -> 0 < n)%nat /\
  (forall k, dget0 0 d' k = dget0 0 d k + count_occ Nat.eq_dec l k)%nat.
Proof.
  induction l as [|x l IH]; intros d H1 H2; cbv zeta.
  - cbn [fold_left]. split; [auto|]. split; [auto|]. intros; simpl; lia.
  - cbn [fold_left]. destruct (IH (dset d x (dget0 0%nat d x + 1)%nat)) as (I1 & I2 & I3).
    + now apply dset_nodup.
    + intros k n H. apply dset_in_pair in H as [[-> ->]|[_ H]]; [lia|eauto|auto].
    + split; [exact I1|]. split; [exact I2|]. intros k. rewrite I3, dget0_dset.
      cbn [count_occ]. destruct (Nat.eq_dec k x) as [->|Hk].
      * destruct (Nat.eq_dec x x); [lia|congruence].
      * destruct (Nat.eq_dec x k); [congruence|lia].
Qed.

(** the counts: one entry per token type, the number of runs of that token *)
Theorem C73_token_counts :
  forall trans,
  NoDup (map fst (token_counts trans)) /\
  (forall k n, In (k, n) (token_counts trans) -> 0 < n)%nat /\
  (forall k, dget0 0 (token_counts trans) k =
     count_occ Nat.eq_dec (flat_map (fun ut => groupby Nat.eq_dec (snd ut)) trans) k)%nat.
Proof.
  intros trans. unfold token_counts.
  assert (G : forall d, NoDup (map fst d) -> (forall k n, In (k, n) d -> 0 < n)%nat ->
    let d' := fold_left (fun d ut =>
      fold_left (fun d tok => dset d tok (dget0 0%nat d tok + 1)%nat)
              (groupby Nat.eq_dec (snd ut)) d) trans d in
    NoDup (map fst d') /\ (forall k n, In (k, n) d' -> 0 < n)%nat /\
    (forall k, dget0 0 d' k = dget0 0 d k +
       count_occ Nat.eq_dec (flat_map (fun ut => groupby Nat.eq_dec (snd ut)) trans) k)%nat).
  { induction trans as [|[u l] trans IH]; intros d H1 H2; cbv zeta.
    - cbn. split; [auto|]. split; [auto|]. intros; lia.
    - cbn [fold_left flat_map snd].
      destruct (tok_fold (groupby Nat.eq_dec l) d H1 H2) as (A1 & A2 & A3).
      destruct (IH _ A1 A2) as (I1 & I2 & I3). split; [exact I1|]. split; [exact I2|].
      intros k. rewrite I3, A3, count_occ_app. lia. }
  apply (G []); [constructor|intros ? ? []].
Qed.

(** the entropy rate lies between 0 and log2 of the number of token types,
    the perplexity between 1 and that number *)
Theorem C73_entropy_bounds :
  forall trans, token_counts trans <> [] ->
  let K := INR (length (token_counts trans)) in
  0 <= entropy_rate (token_counts trans) <= ln K / ln 2 /\
  1 <= perplexity (token_counts trans) <= K.
Proof.
  intros trans Hne K.
  destruct (C73_token_counts trans) as (_ & Hpos & _).
  set (d := token_counts trans) in *.
  assert (Hd : forall x, In x d -> 0 < INR (snd x)).
  { intros [k n] Hi. apply lt_0_INR. eapply Hpos; eauto. }
  assert (Hn : 0 < sumf (fun kc => INR (snd kc)) d) by (apply sumf_pos_all; auto).
  assert (Hb : 0 <= entropy_rate d <= ln K / ln 2).
  { apply (entropy_bounds (fun kc => INR (snd kc) / sumf (fun kc => INR (snd kc)) d) d); auto.
    - intros x Hx. apply Rdiv_lt_0_compat; auto.
    - unfold Rdiv. rewrite sumf_scal_r. apply Rinv_r. lra. }
  split; [exact Hb|].
  assert (Hl := ln2_pos).
  assert (HK : 0 < K) by (apply lt_0_INR; unfold d in *; destruct (token_counts trans); [congruence|simpl; lia]).
  unfold perplexity, Rpower. destruct Hb as [B1 B2].
  assert (E1 : 0 <= entropy_rate d * ln 2) by (apply Rmult_le_pos; lra).
  assert (E2 : entropy_rate d * ln 2 <= ln K).
  { apply Rmult_le_compat_r with (r := ln 2) in B2; [|lra].
    replace (ln K / ln 2 * ln 2) with (ln K) in B2 by (field; lra). exact B2. }
  split.
  - rewrite <- exp_0. destruct E1 as [E1|E1]; [left; now apply exp_increasing|rewrite <- E1; lra].
  - apply Rle_trans with (exp (ln K)); [|right; now apply exp_ln].
    destruct E2 as [E2|E2]; [left; now apply exp_increasing|rewrite E2; lra].
Qed.

Example C73_example : token_counts [(0, [3;3;4;4;3]); (1, [4])]%nat = [(3, 2); (4, 2)]%nat.
Proof. reflexivity. Qed.

Print Assumptions C58_mutual_information.
Print Assumptions C59_argmax.
Print Assumptions C59_best_accuracy.
Print Assumptions C73_entropy_bounds.

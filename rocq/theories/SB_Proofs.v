(** Lemmas for SB_Props.v *)
From Coq Require Import Reals List Arith Bool Lia Lra Permutation.
From Verif Require Import Prelude Vec Gibbs Lgamma Dist_Model Dist_Spec Dist_Proofs KL_Proofs Llh_Proofs SB_Model.
Import ListNotations.
Local Open Scope R_scope.

(** ** Orders *)
Lemma set_at_length {A} k (v : A) l : length (set_at k v l) = length l.
Proof. revert k; induction l; intros [|k]; simpl; auto. Qed.

Lemma set_at_same {A} k (v : A) l d : (k < length l)%nat -> nth k (set_at k v l) d = v.
Proof. revert k; induction l; intros [|k] H; simpl in *; try lia; auto. apply IHl. lia. Qed.

Lemma set_at_other {A} k k' (v : A) l d : k <> k' -> nth k' (set_at k v l) d = nth k' l d.
Proof. revert k k'; induction l; intros [|k] [|k'] H; simpl; auto; try congruence. Qed.

Lemma rev_fold l : forall s acc, NoDup l -> (forall x, In x l -> (x < length acc)%nat) ->
  let r := fold_left (fun acc ij => set_at (snd ij) (fst ij) acc) (combine (seq s (length l)) l) acc in
  length r = length acc /\
  (forall i, (i < length l)%nat -> nth (nth i l 0%nat) r 0%nat = (s + i)%nat) /\
  (forall k, ~ In k l -> nth k r 0%nat = nth k acc 0%nat).
Proof.
  induction l as [|x t IH]; intros s acc ND HB; cbn [length seq combine fold_left].
  - repeat split; intros; simpl in *; auto; lia.
  - inversion ND as [|? ? Hx ND']; subst. cbn [fst snd].
    destruct (IH (S s) (set_at x s acc) ND') as (I1 & I2 & I3).
    { intros y Hy. rewrite set_at_length. apply HB. now right. }
    rewrite set_at_length in I1. split; [exact I1|]. split.
    + intros [|i] Hi; cbn [nth].
      * rewrite I3 by auto. rewrite set_at_same by (apply HB; now left). lia.
      * rewrite I2 by (simpl in Hi; lia). lia.
    + intros k Hk. rewrite I3 by (intros C; apply Hk; now right). apply set_at_other.
      intros ->. apply Hk. now left.
Qed.

Section Order.
  Variables (n : nat) (ord : list nat).
  Hypothesis Hord : Permutation ord (seq 0 n).

  Lemma ord_length : length ord = n.
  Proof. rewrite (Permutation_length Hord). apply seq_length. Qed.

  Lemma ord_nodup : NoDup ord.
  Proof. eapply Permutation_NoDup; [symmetry; exact Hord|apply seq_NoDup]. Qed.

  Lemma ord_lt k : In k ord -> (k < n)%nat.
  Proof. intros H. apply (Permutation_in _ Hord) in H. apply in_seq in H. lia. Qed.

  Lemma ord_nth_lt i : (i < n)%nat -> (nth i ord 0 < n)%nat.
  Proof. intros H. apply ord_lt, nth_In. now rewrite ord_length. Qed.

  Lemma ord_onto k : (k < n)%nat -> exists i, (i < n)%nat /\ nth i ord 0%nat = k.
  Proof.
    intros H. assert (I : In k ord) by (apply (Permutation_in _ (Permutation_sym Hord)), in_seq; lia).
    destruct (In_nth ord k 0%nat I) as (i & Hi & E). rewrite ord_length in Hi. eauto.
  Qed.

  Lemma rev_ord_length : length (reverse_ordering ord) = n.
  Proof.
    unfold reverse_ordering. destruct (rev_fold ord 0 (repeat 0%nat (length ord)) ord_nodup) as (E & _).
    - intros x Hx. rewrite repeat_length, ord_length. now apply ord_lt.
    - rewrite E, repeat_length. apply ord_length.
  Qed.

  Lemma rev_ord_nth i : (i < n)%nat -> nth (nth i ord 0%nat) (reverse_ordering ord) 0%nat = i.
  Proof.
    intros Hi. unfold reverse_ordering.
    destruct (rev_fold ord 0 (repeat 0%nat (length ord)) ord_nodup) as (_ & E & _).
    - intros x Hx. rewrite repeat_length, ord_length. now apply ord_lt.
    - rewrite E by (now rewrite ord_length). lia.
  Qed.

  Lemma rev_ord_perm : Permutation (reverse_ordering ord) (seq 0 n).
  Proof.
    apply NoDup_Permutation_bis.
    - apply NoDup_nth with (d := 0%nat). rewrite rev_ord_length. intros a b Ha Hb E.
      destruct (ord_onto a Ha) as (i & Hi & <-), (ord_onto b Hb) as (j & Hj & <-).
      rewrite !rev_ord_nth in E by auto. congruence.
    - rewrite rev_ord_length, seq_length. lia.
    - intros k Hk. destruct (In_nth _ _ 0%nat Hk) as (a & Ha & <-). rewrite rev_ord_length in Ha.
      destruct (ord_onto a Ha) as (i & Hi & <-). rewrite rev_ord_nth by auto. apply in_seq. lia.
  Qed.

  Lemma ord_rev_nth k : (k < n)%nat -> nth (nth k (reverse_ordering ord) 0%nat) ord 0%nat = k.
  Proof. intros Hk. destruct (ord_onto k Hk) as (i & Hi & <-). now rewrite rev_ord_nth. Qed.

  Lemma reorder_length {A} (d : A) o l : length (reorder d o l) = length o.
  Proof. apply map_length. Qed.

  Lemma reorder_nth {A} (d : A) o l i d' : (i < length o)%nat -> nth i (reorder d o l) d' = nth (nth i o 0%nat) l d.
  Proof. intros H. unfold reorder. now rewrite (map_nth_lt _ _ _ 0%nat d'). Qed.

  (** value, at component ord[i], of a list given in stick order *)
  Lemma unorder_nth {A} (d : A) l i : (i < n)%nat ->
    nth (nth i ord 0%nat) (reorder d (reverse_ordering ord) l) d = nth i l d.
  Proof.
    intros Hi. rewrite reorder_nth by (rewrite rev_ord_length; now apply ord_nth_lt). now rewrite rev_ord_nth.
  Qed.

  Lemma reorder_inverse {A} (d : A) l : length l = n -> reorder d (reverse_ordering ord) (reorder d ord l) = l.
  Proof.
    intros Hl. apply (nth_ext _ _ d d).
    - now rewrite reorder_length, rev_ord_length.
    - rewrite reorder_length, rev_ord_length. intros k Hk.
      destruct (ord_onto k Hk) as (i & Hi & <-). rewrite unorder_nth by auto.
      apply reorder_nth. now rewrite ord_length.
  Qed.

  Lemma reorder_inverse' {A} (d : A) l : length l = n -> reorder d ord (reorder d (reverse_ordering ord) l) = l.
  Proof.
    intros Hl. apply (nth_ext _ _ d d).
    - now rewrite reorder_length, ord_length.
    - rewrite reorder_length, ord_length. intros i Hi. rewrite reorder_nth by (now rewrite ord_length).
      now apply unorder_nth.
  Qed.
End Order.

Lemma reorder_perm {A} n o (d : A) l : Permutation o (seq 0 n) -> length l = n -> Permutation (reorder d o l) l.
Proof.
  intros Ho Hl. unfold reorder. rewrite (Permutation_map (fun k => nth k l d) Ho). subst n.
  rewrite seq_nth_map. reflexivity.
Qed.

Lemma In_firstn {A} (x : A) i l : In x (firstn i l) -> In x l.
Proof. intros H. rewrite <- (firstn_skipn i l). apply in_or_app. now left. Qed.
Lemma In_skipn {A} (x : A) i l : In x (skipn i l) -> In x l.
Proof. intros H. rewrite <- (firstn_skipn i l). apply in_or_app. now right. Qed.

(** ** Cumulative sums *)
Lemma cumsum_from_length acc l : length (cumsum_from acc l) = length l.
Proof. revert acc; induction l; intros; simpl; auto. Qed.
Lemma cumprod_from_length acc l : length (cumprod_from acc l) = length l.
Proof. revert acc; induction l; intros; simpl; auto. Qed.

Lemma cumsum_from_nth l : forall acc i, (i < length l)%nat ->
  nth i (cumsum_from acc l) 0 = acc + rsum (firstn (S i) l).
Proof.
  induction l as [|x t IH]; intros acc [|i] H; simpl in H; try lia.
  - simpl. lra.
  - cbn [cumsum_from nth]. rewrite IH by lia. cbn [firstn rsum]. lra.
Qed.

Lemma cumprod_from_nth l : forall acc i, (i < length l)%nat ->
  nth i (cumprod_from acc l) 0 = acc * rprod (firstn (S i) l).
Proof.
  induction l as [|x t IH]; intros acc [|i] H; simpl in H; try lia.
  - simpl. lra.
  - cbn [cumprod_from nth]. rewrite IH by lia. cbn [firstn rprod]. lra.
Qed.

Lemma cumsum_from_app l x : forall acc,
  cumsum_from acc (l ++ [x]) = cumsum_from acc l ++ [acc + rsum l + x].
Proof.
  induction l as [|y t IH]; intros acc; simpl.
  - f_equal. lra.
  - rewrite IH. do 3 f_equal. lra.
Qed.

Lemma rsum_rev l : rsum (rev l) = rsum l.
Proof. apply rsum_perm. apply Permutation_sym, Permutation_rev. Qed.

Lemma suffix_sums_nth l : forall i, (i < length l)%nat ->
  nth i (rev (cumsum (rev l))) 0 = rsum (skipn i l).
Proof.
  induction l as [|x t IH]; intros i H; [simpl in H; lia|].
  cbn [rev]. unfold cumsum. rewrite cumsum_from_app, rev_app_distr. cbn [rev app].
  destruct i as [|i]; cbn [nth skipn].
  - rewrite rsum_rev. simpl. lra.
  - apply IH. simpl in H. lia.
Qed.

Lemma suffix_sums_length l : length (rev (cumsum (rev l))) = length l.
Proof. unfold cumsum. now rewrite rev_length, cumsum_from_length, rev_length. Qed.

Lemma skipn_S_tl {A} (l : list A) i : skipn (S i) l = skipn i (tl l).
Proof. destruct l; simpl; auto. now destruct i. Qed.

Lemma skipn_app_le {A} (l m : list A) i : (i <= length l)%nat -> skipn i (l ++ m) = skipn i l ++ m.
Proof. intros H. rewrite skipn_app. replace (i - length l)%nat with 0%nat by lia. reflexivity. Qed.

Lemma skipn_cons_nth {A} (l : list A) i d : (i < length l)%nat -> skipn i l = nth i l d :: skipn (S i) l.
Proof. revert i; induction l; intros [|i] H; simpl in *; try lia; auto. rewrite (IHl i) by lia. reflexivity. Qed.

Lemma shift_op_length op l m : S (length m) = length l -> length (shift_op op l m) = length l.
Proof. destruct l; simpl; auto; intros. rewrite map2_length; lia. Qed.

Lemma shift_op_nth op l m i : S (length m) = length l -> (i < length l)%nat ->
  nth i (shift_op op l m) 0 = match i with O => nth 0 l 0 | S j => op (nth i l 0) (nth j m 0) end.
Proof.
  destruct l as [|a t]; simpl; [lia|]. intros Hm Hi. destruct i as [|j]; auto.
  now rewrite (map2_nth op t m j 0 0 0) by lia.
Qed.

Lemma firstn_removelast {A} (l : list A) j : (j < length l)%nat -> firstn j (removelast l) = firstn j l.
Proof.
  revert j; induction l as [|a [|b t] IH]; intros [|j] H; simpl in *; try lia; auto.
  f_equal. apply IH. simpl. lia.
Qed.

(** ** Statistics *)
Section Transform.
  Variables (n : nat) (ord : list nat) (stats : list R).
  Hypothesis Hord : Permutation ord (seq 0 n).
  Hypothesis Hst : length stats = n.

  Lemma transform_length : length (transform_stats ord stats) = n.
  Proof. unfold transform_stats. rewrite reorder_length. now apply rev_ord_length. Qed.

  Lemma transform_nth i : (i < n)%nat ->
    nth (nth i ord 0%nat) (transform_stats ord stats) (0, 0) =
    (nth (nth i ord 0%nat) stats 0, sumf (fun k => nth k stats 0) (skipn i ord)).
  Proof.
    intros Hi. unfold transform_stats. rewrite (unorder_nth n) by auto.
    set (st := reorder 0 ord stats).
    assert (Lst : length st = n) by (unfold st; rewrite reorder_length; now apply ord_length).
    set (s2 := match st with [] => [] | _ :: t => t ++ [0] end).
    assert (L2 : length s2 = n).
    { unfold s2. destruct st; simpl in Lst; [lia|]. rewrite app_length. simpl. lia. }
    rewrite (map2_nth (fun a b => (a, b + a)) st _ i 0 0 (0, 0)) by (rewrite ?suffix_sums_length; lia).
    rewrite suffix_sums_nth by lia.
    assert (E : rsum (skipn i s2) = rsum (skipn (S i) st)).
    { unfold s2. destruct st as [|a t]; [simpl in Lst; lia|]. rewrite skipn_app_le by (simpl in Lst; lia).
      rewrite rsum_app. simpl. lra. }
    assert (N : nth i st 0 = nth (nth i ord 0%nat) stats 0)
      by (unfold st; apply reorder_nth; rewrite (ord_length n); auto).
    rewrite E, N. f_equal.
    rewrite (skipn_cons_nth ord i 0%nat) by (rewrite (ord_length n); auto). rewrite sumf_cons.
    unfold st, reorder. rewrite skipn_map. unfold sumf. lra.
  Qed.
End Transform.

Lemma stick_update_value lrate prior post s : stick_update lrate prior post s =
  ((1 - lrate) * fst post + lrate * (fst prior + fst s),
   (1 - lrate) * snd post + lrate * (snd prior + (snd s - fst s))).
Proof.
  unfold stick_update, std_update, dir_from_nat, dir_nat, set_last. simpl. f_equal; ring.
Qed.

(** ** Weights *)
Section Weights.
  Variables (n : nat) (ord : list nat) (c : list stick) (eps : R).
  Hypothesis Hord : Permutation ord (seq 0 n).
  Hypothesis Hc : length c = n.

  Definition sa k := fst (nth k c (0, 0)).
  Definition sb k := snd (nth k c (0, 0)).
  Definition sv k := sa k / (sa k + sb k + eps).
  Definition sr k := sb k / (sa k + sb k + eps).

  Lemma sb_mean_length : length (sb_mean eps ord c) = n.
  Proof. unfold sb_mean. rewrite reorder_length. now apply rev_ord_length. Qed.

  Lemma sb_mean_nth i : (i < n)%nat ->
    nth (nth i ord 0%nat) (sb_mean eps ord c) 0 = sv (nth i ord 0%nat) * rprod (map sr (firstn i ord)).
  Proof.
    intros Hi. unfold sb_mean. rewrite (unorder_nth n) by auto.
    set (cc := reorder (0, 0) ord c).
    assert (Lc : length cc = n) by (unfold cc; rewrite reorder_length; now apply ord_length).
    set (w := map _ cc). set (q := map (fun ab : R * R => snd ab / _) cc).
    assert (Lw : length w = n) by (unfold w; now rewrite map_length).
    assert (Lq : length q = n) by (unfold q; now rewrite map_length).
    assert (Lr : S (length (removelast (cumprod q))) = n).
    { rewrite removelast_length. unfold cumprod. rewrite cumprod_from_length. lia. }
    rewrite shift_op_nth by lia.
    assert (Nw : nth i w 0 = sv (nth i ord 0%nat)).
    { unfold w. rewrite (map_nth_lt _ _ _ (0, 0) 0) by lia. unfold cc.
      rewrite reorder_nth by (rewrite (ord_length n); auto). reflexivity. }
    assert (Eq : q = map sr ord) by (unfold q, cc, reorder; rewrite map_map; reflexivity).
    destruct i as [|j]; [rewrite Nw; simpl; lra|]. rewrite Nw. f_equal.
    rewrite removelast_nth by (unfold cumprod; rewrite cumprod_from_length; lia).
    unfold cumprod. rewrite cumprod_from_nth by lia. rewrite Eq, firstn_map. lra.
  Qed.

  Lemma sb_mean_sum (v r : nat -> R) l : forall t : R,
    (forall k, In k l -> 0 <= r k) -> (forall k, In k l -> v k + r k <= 1) -> 0 <= t ->
    sumf (fun i => v (nth i l 0%nat) * (t * rprod (map r (firstn i l)))) (seq 0 (length l))
    <= t - t * rprod (map r l).
  Proof.
    induction l as [|x l IH]; intros t Hr Hv Ht.
    - simpl. unfold sumf. simpl. lra.
    - cbn [length seq]. rewrite sumf_cons. rewrite <- seq_shift, sumf_map. cbn [nth firstn map rprod].
      assert (R0 := Hr x (or_introl eq_refl)). assert (V0 := Hv x (or_introl eq_refl)).
      specialize (IH (t * r x) (fun k H => Hr k (or_intror H)) (fun k H => Hv k (or_intror H))
        (Rmult_le_pos _ _ Ht R0)).
      rewrite (sumf_ext _ (fun i => v (nth i l 0%nat) * (t * r x * rprod (map r (firstn i l))))).
      2:{ intros i Hi. ring. }
      assert (t * v x <= t * (1 - r x)) by (apply Rmult_le_compat_l; lra).
      nra.
  Qed.

  Lemma sb_mean_sum_eq (v r : nat -> R) l : forall t : R,
    (forall k, In k l -> v k + r k = 1) ->
    sumf (fun i => v (nth i l 0%nat) * (t * rprod (map r (firstn i l)))) (seq 0 (length l))
    = t - t * rprod (map r l).
  Proof.
    induction l as [|x l IH]; intros t Hv.
    - simpl. unfold sumf. simpl. lra.
    - cbn [length seq]. rewrite sumf_cons. rewrite <- seq_shift, sumf_map. cbn [nth firstn map rprod].
      assert (V0 := Hv x (or_introl eq_refl)).
      specialize (IH (t * r x) (fun k H => Hv k (or_intror H))).
      rewrite (sumf_ext _ (fun i => v (nth i l 0%nat) * (t * r x * rprod (map r (firstn i l))))).
      2:{ intros i Hi. ring. }
      rewrite IH. replace (v x) with (1 - r x) by lra. ring.
  Qed.

  (** sum over components = sum over stick positions *)
  Lemma component_sum (f : nat -> R) (w : list R) : length w = n ->
    (forall i, (i < n)%nat -> nth (nth i ord 0%nat) w 0 = f i) -> rsum w = sumf f (seq 0 n).
  Proof.
    intros Hw Hf. rewrite <- (rsum_perm _ _ (reorder_perm n ord 0 w Hord Hw)).
    rewrite rsum_nth, reorder_length, (ord_length n ord Hord). apply sumf_ext. intros i Hi. apply in_seq in Hi.
    rewrite reorder_nth by (rewrite (ord_length n ord Hord); lia). apply Hf. lia.
  Qed.

  Hypothesis Hpos : forall k, (k < n)%nat -> 0 <= sa k /\ 0 <= sb k /\ 0 < sa k + sb k + eps.
  Hypothesis Heps : 0 <= eps.

  Lemma sv_sr k : (k < n)%nat -> 0 <= sv k /\ 0 <= sr k /\ sv k + sr k <= 1.
  Proof.
    intros Hk. destruct (Hpos k Hk) as (H1 & H2 & H3). unfold sv, sr.
    assert (I := Rinv_0_lt_compat _ H3). split; [|split]; try (apply Rmult_le_pos; lra).
    unfold Rdiv. rewrite <- Rmult_plus_distr_r. apply (Rmult_le_reg_r (sa k + sb k + eps)); auto.
    rewrite Rmult_assoc, Rinv_l by lra. lra.
  Qed.

  Lemma sb_mean_nonneg : Forall (fun w => 0 <= w) (sb_mean eps ord c).
  Proof.
    apply Forall_forall. intros w Hw. destruct (In_nth _ _ 0 Hw) as (k & Hk & <-).
    rewrite sb_mean_length in Hk. destruct (ord_onto n ord Hord k Hk) as (i & Hi & <-).
    rewrite sb_mean_nth by auto. apply Rmult_le_pos.
    - apply sv_sr. now apply ord_nth_lt.
    - apply rprod_nonneg. intros x Hx. apply in_map_iff in Hx. destruct Hx as (y & <- & Hy).
      apply sv_sr. apply (ord_lt n ord Hord). now apply In_firstn in Hy.
  Qed.

  Lemma sb_mean_total : rsum (sb_mean eps ord c) <= 1 - rprod (map sr (seq 0 n)).
  Proof.
    rewrite (component_sum _ _ sb_mean_length sb_mean_nth).
    rewrite <- (rprod_perm _ _ (Permutation_map sr Hord)).
    assert (H := sb_mean_sum sv sr ord 1). rewrite (ord_length n ord Hord) in H.
    rewrite (sumf_ext _ (fun i => sv (nth i ord 0%nat) * (1 * rprod (map sr (firstn i ord)))))
      by (intros; ring).
    assert (1 - rprod (map sr ord) = 1 - 1 * rprod (map sr ord)) as -> by ring.
    apply H; try lra; intros k Hk; apply (ord_lt n ord Hord) in Hk; now apply sv_sr.
  Qed.

  Lemma sb_mean_total_exact : eps = 0 -> rsum (sb_mean eps ord c) = 1 - rprod (map (fun k => 1 - sv k) (seq 0 n)).
  Proof.
    intros E0. rewrite (component_sum _ _ sb_mean_length sb_mean_nth).
    assert (VR : forall k, (k < n)%nat -> sv k + sr k = 1).
    { intros k Hk. destruct (Hpos k Hk) as (_ & _ & H). unfold sv, sr. rewrite E0 in *. field. lra. }
    assert (E1 : map (fun k => 1 - sv k) (seq 0 n) = map sr (seq 0 n)).
    { apply map_ext_in. intros k Hk. apply in_seq in Hk. specialize (VR k ltac:(lia)). lra. }
    rewrite E1. rewrite <- (rprod_perm _ _ (Permutation_map sr Hord)).
    assert (H := sb_mean_sum_eq sv sr ord 1). rewrite (ord_length n ord Hord) in H.
    rewrite (sumf_ext _ (fun i => sv (nth i ord 0%nat) * (1 * rprod (map sr (firstn i ord)))))
      by (intros; ring).
    rewrite H by (intros k Hk; apply (ord_lt n ord Hord) in Hk; now apply VR). ring.
  Qed.
End Weights.

(** ** Expected log-weights *)
Section LogWeights.
  Variables (n : nat) (ord : list nat) (c : list stick).
  Hypothesis Hord : Permutation ord (seq 0 n).
  Hypothesis Hc : length c = n.

  Definition elv k := digamma (sa c k) - digamma (sa c k + sb c k).
  Definition el1v k := digamma (sb c k) - digamma (sa c k + sb c k).

  Lemma log_v_value : log_v ord c = (map elv ord, map el1v ord).
  Proof. unfold log_v, reorder. rewrite !map_map. reflexivity. Qed.

  Lemma sb_log_weights_length : length (sb_log_weights ord c) = n.
  Proof. unfold sb_log_weights. rewrite reorder_length. now apply rev_ord_length. Qed.

  Lemma sb_log_weights_nth i : (i < n)%nat ->
    nth (nth i ord 0%nat) (sb_log_weights ord c) 0 = elv (nth i ord 0%nat) + sumf el1v (firstn i ord).
  Proof.
    intros Hi. unfold sb_log_weights. rewrite (unorder_nth n) by auto. unfold log_prob. rewrite log_v_value.
    cbn [fst]. assert (Lo := ord_length n ord Hord).
    assert (Lr : S (length (cumsum (removelast (map el1v ord)))) = n).
    { unfold cumsum. rewrite cumsum_from_length, removelast_length, map_length. lia. }
    rewrite shift_op_nth by (rewrite map_length; lia).
    assert (E : nth i (map elv ord) 0 = elv (nth i ord 0%nat)) by (apply map_nth_lt; lia).
    destruct i as [|j]; rewrite E.
    - unfold sumf. simpl. lra.
    - f_equal. unfold cumsum. rewrite cumsum_from_nth by (rewrite removelast_length, map_length; lia).
      rewrite firstn_removelast by (rewrite map_length; lia). rewrite firstn_map. unfold sumf. lra.
  Qed.

  Hypothesis Hpos : forall k, (k < n)%nat -> 0 < sa c k /\ 0 < sb c k.

  Lemma elv_le k : (k < n)%nat -> elv k <= ln (sa c k / (sa c k + sb c k)).
  Proof.
    intros Hk. destruct (Hpos k Hk). unfold elv. rewrite ln_div by lra.
    assert (H1 := digamma_ln_mono (sa c k) (sa c k + sb c k) ltac:(lra) ltac:(lra)). lra.
  Qed.
  Lemma el1v_le k : (k < n)%nat -> el1v k <= ln (sb c k / (sa c k + sb c k)).
  Proof.
    intros Hk. destruct (Hpos k Hk). unfold el1v. rewrite ln_div by lra.
    assert (H1 := digamma_ln_mono (sb c k) (sa c k + sb c k) ltac:(lra) ltac:(lra)). lra.
  Qed.
  Lemma el1v_neg k : (k < n)%nat -> el1v k < 0.
  Proof.
    intros Hk. destruct (Hpos k Hk). unfold el1v.
    assert (H1 := digamma_mono (sb c k) (sa c k + sb c k) ltac:(lra) ltac:(lra)). lra.
  Qed.

  Lemma exp_sumf {A} (f : A -> R) l : exp (sumf f l) = rprod (map (fun x => exp (f x)) l).
  Proof. unfold sumf. rewrite exp_rsum, map_map. reflexivity. Qed.

  Lemma rprod_le {A} (f g : A -> R) l : (forall x, In x l -> 0 <= f x <= g x) -> rprod (map f l) <= rprod (map g l).
  Proof.
    induction l as [|x l IH]; intros H; cbn [map rprod]; [lra|].
    assert (Hx := H x (or_introl eq_refl)).
    assert (0 <= rprod (map f l)).
    { apply rprod_nonneg. intros y Hy. apply in_map_iff in Hy. destruct Hy as (z & <- & Hz). apply H. now right. }
    apply Rmult_le_compat; try lra. apply IH. intros; apply H. now right.
  Qed.

  Lemma sb_log_weights_jensen k : (k < n)%nat ->
    exp (nth k (sb_log_weights ord c) 0) <= nth k (sb_mean 0 ord c) 0.
  Proof.
    intros Hk. destruct (ord_onto n ord Hord k Hk) as (i & Hi & <-).
    rewrite sb_log_weights_nth, (sb_mean_nth n) by auto. rewrite exp_plus, exp_sumf.
    assert (P : forall k, (k < n)%nat -> 0 < sa c k / (sa c k + sb c k) /\ 0 < sb c k / (sa c k + sb c k)).
    { intros j Hj. destruct (Hpos j Hj). split; apply Rdiv_lt_0_compat; lra. }
    apply Rmult_le_compat; try (apply Rlt_le, exp_pos).
    - apply rprod_nonneg. intros y Hy. apply in_map_iff in Hy. destruct Hy as (z & <- & Hz). apply Rlt_le, exp_pos.
    - unfold sv. rewrite Rplus_0_r. rewrite <- (exp_ln (sa c _ / _)) at 1 by (apply P; now apply ord_nth_lt).
      assert (H := elv_le _ (ord_nth_lt n ord Hord i Hi)).
      destruct H as [H|H]; [left; now apply exp_increasing|right; now rewrite H].
    - apply rprod_le. intros j Hj. apply In_firstn in Hj. apply (ord_lt n ord Hord) in Hj. split; [apply Rlt_le, exp_pos|].
      unfold sr. rewrite Rplus_0_r. rewrite <- (exp_ln (sb c _ / _)) by (now apply P).
      destruct (el1v_le j Hj) as [H|H]; [left; now apply exp_increasing|right; now rewrite H].
  Qed.
End LogWeights.

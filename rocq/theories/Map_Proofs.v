(** Proofs about Map_Model. *)
From Coq Require Import List Arith Bool Lia Reals Lra Permutation.
From Verif Require Import Prelude Gibbs Edit_Model Edit_Spec Edit_Proofs Dec_Model Dec_Proofs
  Map_Model Map_Spec.
Import ListNotations.

(** ** dictionaries *)
Lemma dget0_dset {V} (v0 : V) d k v k' :
  dget0 v0 (dset d k v) k' = if Nat.eq_dec k' k then v else dget0 v0 d k'.
Proof. unfold dget0. rewrite dget_dset. destruct (Nat.eq_dec k' k); auto. Qed.

Lemma dset_nodup {V} (d : list (nat * V)) k v :
  NoDup (map fst d) -> NoDup (map fst (dset d k v)).
Proof.
  induction d as [|[a b] d IH]; intros H; simpl.
  - repeat constructor; auto.
  - inversion H as [|? ? Hn Hd]; subst. destruct (Nat.eq_dec k a) as [->|Hk]; simpl.
    + now constructor.
    + constructor; [|now apply IH]. intros Hi. apply dset_in in Hi as [->|Hi]; auto.
Qed.

Lemma nodup_dget {V} (d : list (nat * V)) k v :
  NoDup (map fst d) -> In (k, v) d -> dget Nat.eq_dec d k = Some v.
Proof.
  induction d as [|[a b] d IH]; intros H Hi; [destruct Hi|].
  inversion H as [|? ? Hn Hd]; subst. simpl. destruct Hi as [E|Hi].
  - injection E as -> ->. destruct (Nat.eq_dec k k); congruence.
  - destruct (Nat.eq_dec k a) as [->|]; auto.
    exfalso. apply Hn. apply in_map_iff. now exists (a, v).
Qed.

Lemma dget_some_in {V} (d : list (nat * V)) k : In k (map fst d) <-> exists v, dget Nat.eq_dec d k = Some v.
Proof.
  split.
  - induction d as [|[a b] d IH]; intros H; [destruct H|]. simpl.
    destruct (Nat.eq_dec k a); [eauto|]. destruct H as [H|H]; [simpl in H; congruence|auto].
  - intros [v H]. apply dget_in in H. apply in_map_iff. now exists (k, v).
Qed.

(** ** counting *)
Definition cnt (P : nat -> nat -> bool) (l : list (nat * nat)) : nat :=
  length (filter (fun xy => P (fst xy) (snd xy)) l).

Lemma cnt_app P l1 l2 : cnt P (l1 ++ l2) = cnt P l1 + cnt P l2.
Proof. unfold cnt. now rewrite filter_app, app_length. Qed.
Lemma cnt_cons P x l : cnt P (x :: l) = (if P (fst x) (snd x) then 1 else 0) + cnt P l.
Proof. unfold cnt. simpl. destruct (P (fst x) (snd x)); auto. Qed.

Lemma filter_map_len {A B} (f : A -> B) p l :
  length (filter p (map f l)) = length (filter (fun x => p (f x)) l).
Proof. induction l; simpl; auto. destruct (p (f a)); simpl; auto. Qed.

Lemma cnt_zip P r : forall h,
  cnt P (combine r h) =
  length (filter (fun t => match nth_error r t, nth_error h t with
                           | Some x, Some y => P x y | _, _ => false end) (seq 0 (length r))).
Proof.
  induction r as [|x r IH]; intros [|y h]; try reflexivity.
  - change (cnt P (combine (x :: r) [])) with 0.
    induction (seq 0 (length (x :: r))) as [|t l IHl]; [reflexivity|].
    cbn [filter]. destruct (nth_error (x :: r) t) as [z|]; [|exact IHl].
    destruct t; exact IHl.
  - cbn [combine length seq]. rewrite cnt_cons, IH. cbn [fst snd filter nth_error].
    rewrite <- seq_shift. cbn [Nat.add].
    destruct (P x y); cbn [length]; rewrite filter_map_len; reflexivity.
Qed.

Definition get2 (c : list (nat * list (nat * nat))) (u p : nat) : nat :=
  dget0 0 (dget0 [] c u) p.
Definition is (p u : nat) : nat -> nat -> bool := fun x y => (x =? p) && (y =? u).

(** well-formed count tables *)
Record wf_counts (c : list (nat * list (nat * nat))) : Prop := {
  wf_keys : NoDup (map fst c);
  wf_inner : forall u d, In (u, d) c -> d <> [] /\ NoDup (map fst d) /\
                         forall p n, In (p, n) d -> 0 < n }.

Lemma dset_in_pair {V} (d : list (nat * V)) k v k' v' :
  NoDup (map fst d) -> In (k', v') (dset d k v) -> (k' = k /\ v' = v) \/ (k' <> k /\ In (k', v') d).
Proof.
  intros Hn H. assert (G := nodup_dget _ _ _ (dset_nodup d k v Hn) H).
  rewrite dget_dset in G. destruct (Nat.eq_dec k' k) as [->|Hk].
  - left. split; congruence.
  - right. split; auto. now apply dget_in in G.
Qed.

Lemma dset_nonempty {V} (d : list (nat * V)) k v : dset d k v <> [].
Proof. destruct d as [|[a b] d]; simpl; [congruence|]. destruct (Nat.eq_dec k a); congruence. Qed.

Lemma count_pair_spec c r h : wf_counts c ->
  wf_counts (count_pair c (r, h)) /\
  (forall u p, get2 (count_pair c (r, h)) u p = get2 c u p + (if is p u r h then 1 else 0)) /\
  (forall u, In u (map fst (count_pair c (r, h))) <-> u = h \/ In u (map fst c)).
Proof.
  intros [Hk Hi]. split; [|split].
  - unfold count_pair. constructor; [now apply dset_nodup|].
    intros u d H. apply dset_in_pair in H as [[-> ->]|[Hu H]]; [|exact (Hi _ _ H)|exact Hk].
    assert (G : NoDup (map fst (dget0 [] c h)) /\ forall p n, In (p, n) (dget0 [] c h) -> 0 < n).
    { unfold dget0. destruct (dget Nat.eq_dec c h) as [d|] eqn:E.
      - apply dget_in in E. destruct (Hi _ _ E) as (_ & A & B). now split.
      - split; [constructor|intros ? ? []]. }
    destruct G as [G1 G2]. split; [apply dset_nonempty|]. split; [now apply dset_nodup|].
    intros p n H. apply dset_in_pair in H as [[-> ->]|[_ H]]; [lia|eauto|auto].
  - intros u p. unfold get2, count_pair. rewrite dget0_dset.
    unfold is. destruct (Nat.eq_dec u h) as [->|Hu].
    + rewrite dget0_dset, Nat.eqb_refl, andb_true_r.
      destruct (Nat.eq_dec p r) as [->|Hp]; [now rewrite Nat.eqb_refl|].
      destruct (r =? p) eqn:E; [apply Nat.eqb_eq in E; congruence|lia].
    + destruct (h =? u) eqn:E; [apply Nat.eqb_eq in E; congruence|].
      rewrite andb_false_r. lia.
  - intros u. unfold count_pair. apply dset_in.
Qed.

Lemma count_pairs_spec l : forall c, wf_counts c ->
  wf_counts (fold_left count_pair l c) /\
  (forall u p, get2 (fold_left count_pair l c) u p = get2 c u p + cnt (is p u) l) /\
  (forall u, In u (map fst (fold_left count_pair l c)) <-> In u (map snd l) \/ In u (map fst c)).
Proof.
  induction l as [|[r h] l IH]; intros c Hc.
  - cbn. split; [auto|]. split; [intros; unfold cnt; simpl; lia|tauto].
  - cbn [fold_left]. destruct (count_pair_spec c r h Hc) as (H1 & H2 & H3).
    destruct (IH _ H1) as (I1 & I2 & I3). split; [exact I1|]. split.
    + intros u p. rewrite I2, H2, cnt_cons. cbn [fst snd]. lia.
    + intros u. rewrite I3, H3. simpl. intuition.
Qed.

Definition pairs_of (ref hyp : list (nat * list nat)) : list (nat * nat) :=
  flat_map (fun ur => match dget Nat.eq_dec hyp (fst ur) with
                      | Some h => combine (snd ur) h | None => [] end) ref.

Lemma overlap_counts_spec ref hyp counts :
  overlap_counts ref hyp = Ok counts ->
  wf_counts counts /\
  (forall u p, get2 counts u p = cnt (is p u) (pairs_of ref hyp)) /\
  (forall u, In u (map fst counts) <-> In u (map snd (pairs_of ref hyp))).
Proof.
  assert (G : forall c, wf_counts c ->
    foldM (fun counts ur => match dget Nat.eq_dec hyp (fst ur) with
      | None => Err KeyError
      | Some h => Ok (fold_left count_pair (combine (snd ur) h) counts) end) ref c = Ok counts ->
    wf_counts counts /\
    (forall u p, get2 counts u p = get2 c u p + cnt (is p u) (pairs_of ref hyp)) /\
    (forall u, In u (map fst counts) <-> In u (map snd (pairs_of ref hyp)) \/ In u (map fst c))).
  { induction ref as [|[k r] ref IH]; intros c Hc H.
    - injection H as <-. split; [auto|]. split; [intros; unfold cnt; simpl; lia|simpl; tauto].
    - cbn [foldM] in H. unfold pairs_of. cbn [flat_map]. cbn [fst] in *.
      destruct (dget Nat.eq_dec hyp k) as [h|] eqn:E; [|discriminate].
      cbn [bindr] in H. cbn [snd] in *.
      destruct (count_pairs_spec (combine r h) c Hc) as (H1 & H2 & H3).
      destruct (IH _ H1 H) as (I1 & I2 & I3). split; [exact I1|]. split.
      + intros u p. rewrite I2, H2, cnt_app. unfold pairs_of. lia.
      + intros u. rewrite I3, H3, map_app, in_app_iff. unfold pairs_of. tauto. }
  intros H. destruct (G [] ltac:(constructor; [constructor|intros ? ? []]) H) as (G1 & G2 & G3).
  split; [auto|]. split; [auto|].
  intros u. rewrite G3. simpl. tauto.
Qed.

Lemma overlap_counts_total ref hyp :
  (forall k r, In (k, r) ref -> exists h, dget Nat.eq_dec hyp k = Some h) ->
  exists counts, overlap_counts ref hyp = Ok counts.
Proof.
  unfold overlap_counts. generalize (@nil (nat * list (nat * nat))).
  induction ref as [|[k r] ref IH]; intros c H; [cbn; eauto|].
  cbn [foldM fst snd]. destruct (H k r (or_introl eq_refl)) as [h ->]. cbn [bindr].
  apply IH. intros; eapply H. right; eauto.
Qed.

Lemma overlap_counts_missing ref hyp k r :
  In (k, r) ref -> dget Nat.eq_dec hyp k = None -> overlap_counts ref hyp = Err KeyError.
Proof.
  unfold overlap_counts. generalize (@nil (nat * list (nat * nat))).
  induction ref as [|[k' r'] ref IH]; intros c H Hk; [destruct H|].
  cbn [foldM fst snd]. destruct H as [E|H].
  - injection E as -> ->. now rewrite Hk.
  - destruct (dget Nat.eq_dec hyp k'); cbn [bindr]; auto.
Qed.

Lemma max_key_spec d k : max_key d = Ok k ->
  exists v, In (k, v) d /\ forall k' v', In (k', v') d -> v' <= v.
Proof.
  destruct d as [|[k0 v0] d]; [discriminate|]. intros [= H].
  assert (G : forall d bk bv, max_key_from bk bv d = k ->
    exists v, In (k, v) ((bk, bv) :: d) /\ forall k' v', In (k', v') ((bk, bv) :: d) -> v' <= v).
  { clear. induction d as [|[k1 v1] d IH]; intros bk bv H.
    - simpl in H. subst. exists bv. split; [now left|].
      intros k' v' [[= <- <-]|[]]. auto.
    - simpl in H. destruct (bv <? v1) eqn:E.
      + apply Nat.ltb_lt in E. destruct (IH _ _ H) as (v & H1 & H2).
        exists v. split; [now right|]. intros k' v' [[= <- <-]|Hi]; [|eauto].
        specialize (H2 k1 v1 (or_introl eq_refl)). lia.
      + apply Nat.ltb_ge in E. destruct (IH _ _ H) as (v & H1 & H2).
        exists v. split.
        * destruct H1 as [H1|H1]; [now left|right; now right].
        * intros k' v' [[= <- <-]|[[= <- <-]|Hi]].
          -- apply (H2 bk). now left.
          -- specialize (H2 bk bv (or_introl eq_refl)). lia.
          -- apply (H2 k'). now right. }
  apply (G d k0 v0 H).
Qed.

(** the mapping in terms of pair counts *)
Lemma mapM_dict (g : list (nat * nat) -> result nat) (c : list (nat * list (nat * nat))) m :
  mapM (fun uc => bindr (g (snd uc)) (fun p => Ok (fst uc, p))) c = Ok m ->
  map fst m = map fst c /\
  forall u p, dget Nat.eq_dec m u = Some p ->
    exists d, dget Nat.eq_dec c u = Some d /\ g d = Ok p.
Proof.
  revert m. induction c as [|[u0 d0] c IH]; intros m H.
  - injection H as <-. split; [reflexivity|]. intros u p; discriminate.
  - cbn [mapM fst snd] in H. destruct (g d0) as [p0|] eqn:E; [|discriminate]. cbn [bindr] in H.
    destruct (mapM (fun uc => bindr (g (snd uc)) (fun p => Ok (fst uc, p))) c) as [m'|];
      [|discriminate]. cbn [bindr] in H. injection H as <-.
    destruct (IH m' eq_refl) as [I1 I2]. split; [simpl; now rewrite I1|].
    intros u p H. simpl in H |- *. destruct (Nat.eq_dec u u0); [|auto].
    injection H as <-. eauto.
Qed.

Lemma mapM_total {A B} (f : A -> result B) l :
  (forall x, In x l -> exists y, f x = Ok y) -> exists m, mapM f l = Ok m.
Proof.
  induction l as [|x l IH]; intros H; [simpl; eauto|].
  destruct (H x (or_introl eq_refl)) as [y E]. simpl. rewrite E. simpl.
  destruct IH as [m ->]; [intros; apply H; now right|]. simpl. eauto.
Qed.

Lemma overlap_mapping_total ref hyp :
  (forall k r, In (k, r) ref -> exists h, dget Nat.eq_dec hyp k = Some h) ->
  exists m, overlap_mapping ref hyp = Ok m.
Proof.
  intros H. destruct (overlap_counts_total ref hyp H) as [c Hc].
  unfold overlap_mapping. rewrite Hc. cbn [bindr].
  destruct (overlap_counts_spec _ _ _ Hc) as (W & _ & _).
  apply mapM_total. intros [u d] Hi. destruct (wf_inner c W u d Hi) as [Hne _].
  cbn [fst snd]. destruct d as [|[k v] d]; [congruence|]. cbn. eauto.
Qed.

Lemma overlap_mapping_spec ref hyp m :
  overlap_mapping ref hyp = Ok m ->
  (forall u, In u (map fst m) <-> In u (map snd (pairs_of ref hyp))) /\
  (forall u p, dget Nat.eq_dec m u = Some p ->
     0 < cnt (is p u) (pairs_of ref hyp) /\
     forall q, cnt (is q u) (pairs_of ref hyp) <= cnt (is p u) (pairs_of ref hyp)).
Proof.
  unfold overlap_mapping. destruct (overlap_counts ref hyp) as [c|] eqn:Ec; [|discriminate].
  cbn [bindr]. intros H. destruct (overlap_counts_spec _ _ _ Ec) as (W & C1 & C2).
  apply mapM_dict in H as [M1 M2]. split.
  - intros u. rewrite M1. apply C2.
  - intros u p Hp. destruct (M2 u p Hp) as (d & Hd & Hg).
    destruct (wf_inner c W u d (dget_in _ _ _ _ Hd)) as (_ & Hn & Hpos).
    apply max_key_spec in Hg as (v & Hv & Hmax).
    assert (Ep : cnt (is p u) (pairs_of ref hyp) = v).
    { rewrite <- C1. unfold get2, dget0 at 2. rewrite Hd. unfold dget0.
      now rewrite (nodup_dget d p v Hn Hv). }
    split; [rewrite Ep; eauto|]. intros q. rewrite Ep, <- C1.
    unfold get2, dget0 at 2. rewrite Hd. unfold dget0.
    destruct (dget Nat.eq_dec d q) as [w|] eqn:E; [|lia]. apply dget_in in E. eauto.
Qed.

(** spec counts are pair counts *)
Lemma zip_spec (P : nat -> nat -> bool) ref hyp :
  NoDup (map fst ref) ->
  list_sum (map (fun k => match dget Nat.eq_dec ref k, dget Nat.eq_dec hyp k with
    | Some r, Some h =>
        length (filter (fun t => match nth_error r t, nth_error h t with
                                 | Some x, Some y => P x y
                                 | _, _ => false end)%bool (seq 0 (length r)))
    | _, _ => 0 end) (map fst ref)) = cnt P (pairs_of ref hyp).
Proof.
  intros Hn. unfold pairs_of.
  assert (G : forall l, incl l ref ->
    list_sum (map (fun k => match dget Nat.eq_dec ref k, dget Nat.eq_dec hyp k with
    | Some r, Some h =>
        length (filter (fun t => match nth_error r t, nth_error h t with
                                 | Some x, Some y => P x y
                                 | _, _ => false end)%bool (seq 0 (length r)))
    | _, _ => 0 end) (map fst l)) = cnt P (flat_map (fun ur => match dget Nat.eq_dec hyp (fst ur) with
                      | Some h => combine (snd ur) h | None => [] end) l)).
  { induction l as [|[k r] l IH]; intros Hl; [reflexivity|].
    cbn [map list_sum flat_map fst snd fold_right]. rewrite cnt_app.
    rewrite (nodup_dget ref k r) by (auto; apply Hl; now left).
    f_equal; [|apply IH; intros x Hx; apply Hl; now right].
    destruct (dget Nat.eq_dec hyp k) as [h|]; [|reflexivity]. now rewrite cnt_zip. }
  apply G. apply incl_refl.
Qed.

(** splitting a count by the second component *)
Lemma cnt_split (f : nat -> nat) U : forall l, NoDup U -> (forall y, In y (map snd l) -> In y U) ->
  cnt (fun x y => x =? f y) l = list_sum (map (fun u => cnt (is (f u) u) l) U).
Proof.
  induction l as [|[x y] l IH]; intros HU Hin.
  - unfold cnt. simpl. clear. induction U; simpl; auto.
  - rewrite cnt_cons. rewrite IH by (auto; intros; apply Hin; now right). cbn [fst snd].
    assert (E : map (fun u => cnt (is (f u) u) ((x, y) :: l)) U =
                map (fun u => (if is (f u) u x y then 1 else 0) + cnt (is (f u) u) l) U).
    { apply map_ext. intros u. now rewrite cnt_cons. }
    rewrite E. clear E.
    assert (Hy : In y U) by (apply Hin; now left).
    assert (G : forall V, list_sum (map (fun u => (if is (f u) u x y then 1 else 0) + cnt (is (f u) u) l) V)
      = list_sum (map (fun u => if is (f u) u x y then 1 else 0) V) +
        list_sum (map (fun u => cnt (is (f u) u) l) V)).
    { induction V as [|v V IHV]; [reflexivity|]. cbn [map list_sum fold_right] in *.
      unfold list_sum in IHV. rewrite IHV. unfold list_sum. lia. }
    rewrite G. f_equal. clear G IH Hin.
    induction U as [|u U IHU]; [destruct Hy|].
    inversion HU as [|? ? Hu HU']; subst. cbn [map list_sum fold_right].
    unfold is at 1. destruct Hy as [->|Hy].
    + rewrite Nat.eqb_refl, andb_true_r.
      assert (Z : fold_right Nat.add 0 (map (fun u => if is (f u) u x y then 1 else 0) U) = 0).
      { clear - Hu. induction U as [|v U IH]; [reflexivity|]. cbn [map fold_right].
        rewrite IH by (intros H; apply Hu; now right). unfold is.
        destruct (y =? v) eqn:E; [|rewrite andb_false_r; reflexivity].
        apply Nat.eqb_eq in E. exfalso. apply Hu. left. auto. }
      rewrite Z. lia.
    + rewrite IHU by auto. unfold list_sum.
      destruct (y =? u) eqn:E; [apply Nat.eqb_eq in E; congruence|].
      rewrite andb_false_r. reflexivity.
Qed.

Lemma map_trans_spec trans mapping unk new :
  map_trans trans mapping unk = Ok new <->
  Forall2 (fun a b => fst a = fst b /\ Forall2 (fun x y =>
     dget Nat.eq_dec mapping x = Some y \/ (dget Nat.eq_dec mapping x = None /\ unk = Some y))
     (snd a) (snd b)) trans new.
Proof.
  assert (T : forall l l', mapM (map_token mapping unk) l = Ok l' <->
    Forall2 (fun x y => dget Nat.eq_dec mapping x = Some y \/
                        (dget Nat.eq_dec mapping x = None /\ unk = Some y)) l l').
  { induction l as [|x l IH]; intros l'; cbn [mapM].
    - split; [intros [= <-]; constructor|intros H; inversion H; reflexivity].
    - split.
      + unfold map_token at 1. destruct (dget Nat.eq_dec mapping x) as [y|] eqn:E.
        * cbn [bindr]. destruct (mapM (map_token mapping unk) l) as [r|] eqn:F; [|discriminate].
          intros [= <-]. constructor; [auto|]. now apply IH.
        * destruct unk as [y|] eqn:Eu; [|discriminate].
          cbn [bindr]. destruct (mapM (map_token mapping (Some y)) l) as [r|] eqn:F; [|discriminate].
          intros [= <-]. constructor; [auto|]. now apply IH.
      + intros H. inversion H as [|? y ? r Hx Hr]; subst. apply IH in Hr.
        unfold map_token at 1. destruct Hx as [->|[-> ->]]; cbn [bindr]; rewrite Hr; reflexivity. }
  revert new. unfold map_trans. induction trans as [|[k l] trans IH]; intros new; cbn [mapM fst snd].
  - split; [intros [= <-]; constructor|intros H; inversion H; reflexivity].
  - split.
    + destruct (mapM (map_token mapping unk) l) as [r|] eqn:F; [|discriminate].
      cbn [bindr].
      destruct (mapM (fun ut => bindr (mapM (map_token mapping unk) (snd ut))
         (fun l => Ok (fst ut, l))) trans) as [r'|] eqn:F'; [|discriminate].
      intros [= <-]. constructor; [split; [reflexivity|now apply T]|]. now apply IH.
    + intros H. inversion H as [|? [k' y] ? r [Hk Hx] Hr]; subst. cbn [fst snd] in *. subst k'.
      apply T in Hx. rewrite Hx. cbn [bindr]. apply IH in Hr. rewrite Hr. reflexivity.
Qed.
